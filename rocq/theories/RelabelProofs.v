(** Proofs about [Relabel]. *)
From Verif Require Import Prelude Json Enums LangTag LangString Str Keyword Container ContextSyntax Ctx Object ObjectEq ObjectJson Relabel.

Lemma nodup_app {A} (l m : list A) : NoDup l -> NoDup m -> (forall x, In x l -> ~ In x m) -> NoDup (l ++ m).
Proof.
  induction 1 as [|x l N H IH]; intros M D; [exact M|]. cbn. constructor.
  - intros I. apply in_app_or in I. destruct I as [I|I]; [exact (N I)|]. exact (D x (or_introl eq_refl) I).
  - apply IH; [exact M|]. intros y I. apply D. right. exact I.
Qed.

Section Proofs.
  Variable gen : nat -> id.
  Hypothesis gen_inj : forall j k, gen j = gen k -> j = k.

  Definition between (a b : nat) (i : id) : Prop := exists k, a <= k < b /\ i = gen k.
  Definition Inv (s : env) : Prop :=
    Forall (fun p => between 0 (fst s) (snd p)) (snd s) /\ NoDup (map fst (snd s)) /\ NoDup (map snd (snd s)).
  Definition ext (s s' : env) : Prop :=
    fst s <= fst s' /\ exists m, snd s' = m ++ snd s /\ Forall (fun p => between (fst s) (fst s') (snd p)) m.
  (** From [s] to [s'], the identifiers [A] are given to anonymous nodes. *)
  Definition step (s s' : env) (A : list id) : Prop :=
    (Inv s -> Inv s') /\ ext s s' /\ NoDup A /\ Forall (between (fst s) (fst s')) A /\ (Inv s -> forall i, In i A -> ~ In i (map snd (snd s'))).

  Lemma between_weaken a b a' b' i : a' <= a -> b <= b' -> between a b i -> between a' b' i.
  Proof. intros H H' (k & K & ->). exists k. split; [lia|reflexivity]. Qed.
  Lemma between_disj a b c d i : b <= c -> between a b i -> between c d i -> False.
  Proof. intros H (k & K & ->) (k' & K' & E). apply gen_inj in E. lia. Qed.
  Lemma ext_refl s : ext s s.
  Proof. split; [lia|]. exists []. split; [reflexivity|constructor]. Qed.
  Lemma ext_trans a b c : ext a b -> ext b c -> ext a c.
  Proof.
    intros [L (m & E & F)] [L' (m' & E' & F')]. split; [lia|]. exists (m' ++ m). split; [rewrite E', E, app_assoc; reflexivity|].
    apply Forall_app. split; [eapply Forall_impl; [|exact F']; intros p; apply between_weaken; lia|].
    eapply Forall_impl; [|exact F]; intros p; apply between_weaken; lia.
  Qed.
  Lemma step_refl s : step s s [].
  Proof. split; [auto|]. split; [apply ext_refl|]. split; [constructor|]. split; [constructor|]. intros _ i []. Qed.
  Lemma step_trans s s1 s2 A B : step s s1 A -> step s1 s2 B -> step s s2 (A ++ B).
  Proof.
    intros (I & E & N & F & D) (I' & E' & N' & F' & D'). split; [auto|]. split; [eapply ext_trans; eassumption|].
    destruct E as [L (m & M & Fm)], E' as [L' (m' & M' & Fm')]. split; [|split].
    - apply nodup_app; [assumption|assumption|]. intros i J K. rewrite Forall_forall in F, F'. exact (between_disj _ _ _ _ _ (le_n _) (F _ J) (F' _ K)).
    - apply Forall_app. split; [eapply Forall_impl; [|exact F]|eapply Forall_impl; [|exact F']]; intros i; apply between_weaken; lia.
    - intros Hs i J. apply in_app_or in J. destruct J as [J|J]; [|apply D'; auto].
      rewrite M', map_app. intros K. apply in_app_or in K. destruct K as [K|K]; [|exact (D Hs i J K)].
      apply in_map_iff in K. destruct K as (p & <- & K). rewrite Forall_forall in F, Fm'.
      exact (between_disj _ _ _ _ _ (le_n _) (F _ J) (Fm' _ K)).
  Qed.
  Lemma step_ext s s' A : step s s' A -> ext s s'. Proof. intros H. apply H. Qed.

  Lemma step_next s i s' : gen_next gen s = (i, s') -> step s s' [i].
  Proof.
    unfold gen_next. intros E. injection E as <- <-. unfold step, Inv, ext. cbn [fst snd]. split; [|split; [|split; [|split]]].
    - intros (F & N & N'). split; [|auto]. eapply Forall_impl; [|exact F]. intros p. apply between_weaken; lia.
    - split; [lia|]. exists []. split; [reflexivity|constructor].
    - repeat constructor. intros [].
    - repeat constructor. exists (fst s). split; [lia|reflexivity].
    - intros (F & _) i [<-|[]] J. apply in_map_iff in J. destruct J as (p & E & J). rewrite Forall_forall in F.
      destruct (F p J) as (k & K & X). rewrite E in X. apply gen_inj in X. lia.
  Qed.
  Lemma step_assign s i i' s' : assign_id gen s i = (i', s') -> step s s' [].
  Proof.
    destruct i as [u|b|u]; cbn [assign_id]; intros E; try (injection E as <- <-; apply step_refl).
    unfold assign in E. destruct (assoc b (snd s)) as [j|] eqn:L; injection E as <- <-; [apply step_refl|].
    unfold step, Inv, ext. cbn [fst snd]. split; [|split; [|split; [|split]]].
    - intros (F & N & N'). split; [|split].
      + constructor; [exists (fst s); split; [lia|reflexivity]|]. eapply Forall_impl; [|exact F]. intros p. apply between_weaken; lia.
      + cbn. constructor; [|exact N]. apply assoc_None_notin. exact L.
      + cbn. constructor; [|exact N']. intros J. apply in_map_iff in J. destruct J as (p & E & J). rewrite Forall_forall in F.
        destruct (F p J) as (k & K & X). rewrite E in X. apply gen_inj in X. lia.
    - split; [lia|]. eexists [_]. split; [reflexivity|]. repeat constructor. exists (fst s). split; [lia|reflexivity].
    - constructor.
    - constructor.
    - intros _ i [].
  Qed.

  (** ** Relabelling renames *)
  Section Renames.
    Variable asg : env -> id -> id * env.
    (** The renaming a later state stands for, and the identifiers it covers. *)
    Variable F : env -> string -> id.
    Variable D : env -> id -> Prop.
    Hypothesis asg_step : forall s i i' s', asg s i = (i', s') -> step s s' [].
    Hypothesis asg_ren : forall s i i' s', Inv s -> asg s i = (i', s') ->
      D s' i /\ forall sf, Inv sf -> ext s' sf -> i' = ren_id (F sf) i.
    Hypothesis D_ext : forall s s' i, ext s s' -> D s i -> D s' i.

    Definition renames {X Y} (R : (string -> id) -> X -> Y -> list id -> Prop) (Nm : X -> id -> Prop) (f : env -> X -> Y * env) (x : X) : Prop :=
      forall s y s', Inv s -> f s x = (y, s') -> exists A, step s s' A /\ (forall sf, Inv sf -> ext s' sf -> R (F sf) x y A) /\ (forall i, Nm x i -> D s' i).
    Definition ide {A : Type} (l : list A) := l.

    Lemma map_st_ren {X Y} R Nm (f : env -> X -> Y * env) l : Forall (renames R Nm f) l ->
      renames (fun r => each (R r)) (fun l i => exists x, In x l /\ Nm x i) (map_st f) l.
    Proof.
      intros H. induction H as [|x l Hx Hl IH]; intros s y s' I E.
      - cbn in E. injection E as <- <-. exists []. split; [apply step_refl|]. split; [intros; constructor|]. intros i (x & [] & _).
      - cbn in E. fold (map_st f) in E. destruct (f s x) as [y1 s1] eqn:E1. destruct (map_st f s1 l) as [l1 s2] eqn:E2. injection E as <- <-.
        destruct (Hx _ _ _ I E1) as (A & SA & RA & DA). assert (I1 : Inv s1) by (apply SA, I).
        destruct (IH _ _ _ I1 E2) as (B & SB & RB & DB). exists (A ++ B). split; [eapply step_trans; eassumption|]. split.
        + intros sf If Ef. constructor; [apply RA; [exact If|]; eapply ext_trans; [apply SB|exact Ef]|apply RB; assumption].
        + intros i (z & [<-|J] & N); [eapply D_ext; [apply SB|]; auto|apply DB; eauto].
    Qed.
    Lemma pair_ren {K X Y} R Nm (f : env -> X -> Y * env) (p : K * X) : renames R Nm f (snd p) ->
      renames (fun r p q A => fst p = fst q /\ R r (snd p) (snd q) A) (fun p i => Nm (snd p) i)
        (fun s p => let (y, s') := f s (snd p) in ((fst p, y), s')) p.
    Proof.
      intros H s y s' I E. destruct (f s (snd p)) as [y1 s1] eqn:E1. injection E as <- <-.
      destruct (H _ _ _ I E1) as (A & S & R' & D'). exists A. split; [exact S|]. split; [|exact D']. intros sf If Ef. split; [reflexivity|]. apply R'; assumption.
    Qed.
    Lemma opt_ren {X Y} R Nm (f : env -> X -> Y * env) (c : list Y -> list Y) s o y s' : c = ide -> Forall (renames R Nm f) (opt_list o) -> Inv s ->
      match o with Some l => let (l', s') := map_st f s l in (Some (c l'), s') | None => (None, s) end = (y, s') ->
      exists A, step s s' A /\ (forall sf, Inv sf -> ext s' sf -> each_opt (R (F sf)) o y A) /\ (forall i x, In x (opt_list o) -> Nm x i -> D s' i).
    Proof.
      intros -> H I E. destruct o as [l|].
      - destruct (map_st f s l) as [l' s1] eqn:E1. injection E as <- <-. destruct (map_st_ren R Nm f l H _ _ _ I E1) as (A & S & R' & D').
        exists A. split; [exact S|]. split; [intros; constructor; apply R'; assumption|]. intros i x J N. apply D'. eauto.
      - injection E as <- <-. exists []. split; [apply step_refl|]. split; [intros; constructor|]. intros i x [].
    Qed.
    Lemma types_ren s l l' s' : Inv s -> map_st asg s l = (l', s') ->
      step s s' [] /\ (forall sf, Inv sf -> ext s' sf -> l' = map (ren_id (F sf)) l) /\ (forall i, In i l -> D s' i).
    Proof.
      revert s l' s'. induction l as [|x l IH]; intros s l' s' I E.
      - cbn in E. injection E as <- <-. split; [apply step_refl|]. split; [reflexivity|intros i []].
      - cbn in E. fold (map_st asg) in E. destruct (asg s x) as [y1 s1] eqn:E1. destruct (map_st asg s1 l) as [l1 s2] eqn:E2. injection E as <- <-.
        pose proof (asg_step _ _ _ _ E1) as S1. destruct (asg_ren _ _ _ _ I E1) as [D1 R1]. assert (I1 : Inv s1) by (apply S1, I).
        destruct (IH _ _ _ I1 E2) as (S2 & R2 & D2). split; [exact (step_trans _ _ _ _ _ S1 S2)|]. split.
        + intros sf If Ef. cbn. f_equal; [apply R1; [exact If|]; eapply ext_trans; [apply S2|exact Ef]|apply R2; assumption].
        + intros i [<-|J]; [eapply D_ext; [apply S2|exact D1]|auto].
    Qed.

    Lemma relabel_renames : (forall o, renames ren named (relabel_o gen asg ide ide) o) /\ (forall n, renames ren_node named_node (relabel_n gen asg ide ide) n).
    Proof.
      assert (Po : forall x : iobj, renames ren named (relabel_o gen asg ide ide) (snd x) ->
        renames (fun r x y A => fst x = fst y /\ ren r (snd x) (snd y) A) (fun x i => named (snd x) i)
          (fun s (x : iobj) => let (o', s') := relabel_o gen asg ide ide s (snd x) in ((fst x, o'), s')) x) by (intros; apply pair_ren; assumption).
      assert (Pn : forall x : inode, renames ren_node named_node (relabel_n gen asg ide ide) (snd x) ->
        renames (fun r x y A => fst x = fst y /\ ren_node r (snd x) (snd y) A) (fun x i => named_node (snd x) i)
          (fun s (x : inode) => let (o', s') := relabel_n gen asg ide ide s (snd x) in ((fst x, o'), s')) x) by (intros; apply pair_ren; assumption).
      apply obj_node_ind.
      - intros v s y s' I E. cbn in E. injection E as <- <-. exists []. split; [apply step_refl|]. split; [intros; constructor|]. intros i N. inversion N.
      - intros n IH s y s' I E. rewrite relabel_node_eq in E. destruct (relabel_n gen asg ide ide s n) as [n' s1] eqn:E1. injection E as <- <-.
        destruct (IH _ _ _ I E1) as (A & S & R & D'). exists A. split; [exact S|]. split; [intros; constructor; apply R; assumption|].
        intros i N. inversion N; subst. auto.
      - intros l IH s y s' I E. rewrite relabel_list_eq in E.
        match type of E with (let (_, _) := ?t in _) = _ => destruct t as [l' s1] eqn:E1 end. injection E as <- <-.
        destruct (map_st_ren _ _ _ l (Forall_impl _ Po IH) _ _ _ I E1) as (A & S & R & D'). exists A. split; [exact S|]. split; [intros; constructor; apply R; assumption|].
        intros i N. inversion N as [|? x ? J N']; subst. apply D'. eauto.
      - intros i ts g inc ps rs Hg Hi Hp Hr s y s' I E. rewrite relabel_mk_eq in E.
        match type of E with (let (_, _) := ?t in _) = _ => destruct t as [i' s1] eqn:E1 end.
        match type of E with (let (_, _) := ?t in _) = _ => destruct t as [ts' s2] eqn:E2 end.
        match type of E with (let (_, _) := ?t in _) = _ => destruct t as [g' s3] eqn:E3 end.
        match type of E with (let (_, _) := ?t in _) = _ => destruct t as [inc' s4] eqn:E4 end.
        match type of E with (let (_, _) := ?t in _) = _ => destruct t as [ps' s5] eqn:E5 end.
        match type of E with (let (_, _) := ?t in _) = _ => destruct t as [rs' s6] eqn:E6 end.
        injection E as <- <-.
        assert (X1 : exists A, step s s1 A /\ (forall sf, Inv sf -> ext s1 sf -> ren_node_id (F sf) i (Some i') A) /\ (forall j, i = Some j -> D s1 j)).
        { destruct i as [i|].
          - exists []. split; [eapply asg_step; eassumption|]. destruct (asg_ren _ _ _ _ I E1) as [D1 R1]. split; [|intros j X; injection X as <-; exact D1].
            intros sf If Ef. rewrite (R1 sf If Ef). constructor.
          - exists [i']. split; [apply step_next, E1|]. split; [constructor|discriminate]. }
        destruct X1 as (A1 & S1 & R1 & D1). assert (I1 : Inv s1) by (apply S1, I).
        assert (X2 : step s1 s2 [] /\ (forall sf, Inv sf -> ext s2 sf -> ts' = option_map (map (ren_id (F sf))) ts) /\ (forall j, In j (opt_list ts) -> D s2 j)).
        { destruct ts as [l|].
          - destruct (map_st asg s1 l) as [l' s2'] eqn:E2'. injection E2 as <- <-. destruct (types_ren _ _ _ _ I1 E2') as (S2 & R2 & D2).
            split; [exact S2|]. split; [|exact D2]. intros sf If Ef. cbn. rewrite (R2 sf If Ef). reflexivity.
          - injection E2 as <- <-. split; [apply step_refl|]. split; [reflexivity|intros j []]. }
        destruct X2 as (S2 & R2 & D2). assert (I2 : Inv s2) by (apply S2, I1).
        destruct (opt_ren _ _ _ _ _ _ _ _ eq_refl (Forall_impl _ Po Hg) I2 E3) as (A3 & S3 & R3 & D3). assert (I3 : Inv s3) by (apply S3, I2).
        destruct (opt_ren _ _ _ _ _ _ _ _ eq_refl (Forall_impl _ Pn Hi) I3 E4) as (A4 & S4 & R4 & D4). assert (I4 : Inv s4) by (apply S4, I3).
        assert (Hp' : Forall (renames (fun r p q A => fst p = fst q /\ each (fun x y A => fst x = fst y /\ ren r (snd x) (snd y) A) (snd p) (snd q) A)
            (fun p i => exists x, In x (snd p) /\ named (snd x) i)
            (fun s (p : id * list iobj) => let (l', s') := map_st (fun s x => let (o', s') := relabel_o gen asg ide ide s (snd x) in ((fst x, o'), s')) s (snd p) in ((fst p, l'), s'))) ps).
        { eapply Forall_impl; [|exact Hp]. intros p H.
          apply (pair_ren (fun r => each (fun (x y : iobj) A => fst x = fst y /\ ren r (snd x) (snd y) A)) (fun l i => exists x : iobj, In x l /\ named (snd x) i) (map_st (fun s (x : iobj) => let (o', s') := relabel_o gen asg ide ide s (snd x) in ((fst x, o'), s'))) p).
          apply (map_st_ren _ _ _ _ (Forall_impl _ Po H)). }
        destruct (map_st_ren _ _ _ ps Hp' _ _ _ I4 E5) as (A5 & S5 & R5 & D5). assert (I5 : Inv s5) by (apply S5, I4).
        assert (Hr' : Forall (renames (fun r p q A => fst p = fst q /\ each (fun x y A => fst x = fst y /\ ren_node r (snd x) (snd y) A) (snd p) (snd q) A)
            (fun p i => exists x, In x (snd p) /\ named_node (snd x) i)
            (fun s (p : id * list inode) => let (l', s') := map_st (fun s x => let (o', s') := relabel_n gen asg ide ide s (snd x) in ((fst x, o'), s')) s (snd p) in ((fst p, l'), s'))) (opt_list rs)).
        { eapply Forall_impl; [|exact Hr]. intros p H.
          apply (pair_ren (fun r => each (fun (x y : inode) A => fst x = fst y /\ ren_node r (snd x) (snd y) A)) (fun l i => exists x : inode, In x l /\ named_node (snd x) i) (map_st (fun s (x : inode) => let (o', s') := relabel_n gen asg ide ide s (snd x) in ((fst x, o'), s'))) p).
          apply (map_st_ren _ _ _ _ (Forall_impl _ Pn H)). }
        destruct (opt_ren _ _ _ ide _ _ _ _ eq_refl Hr' I5 E6) as (A6 & S6 & R6 & D6).
        pose proof (step_trans _ _ _ _ _ S5 S6) as T5. pose proof (step_trans _ _ _ _ _ S4 T5) as T4.
        pose proof (step_trans _ _ _ _ _ S3 T4) as T3. pose proof (step_trans _ _ _ _ _ S2 T3) as T2. pose proof (step_trans _ _ _ _ _ S1 T2) as T1.
        exists (A1 ++ A3 ++ A4 ++ A5 ++ A6). split; [exact T1|]. split.
        + intros sf If Ef.
          assert (Ef5 : ext s5 sf) by (eapply ext_trans; [apply S6|exact Ef]). assert (Ef4 : ext s4 sf) by (eapply ext_trans; [apply S5|exact Ef5]).
          assert (Ef3 : ext s3 sf) by (eapply ext_trans; [apply S4|exact Ef4]). assert (Ef2 : ext s2 sf) by (eapply ext_trans; [apply S3|exact Ef3]).
          assert (Ef1 : ext s1 sf) by (eapply ext_trans; [apply S2|exact Ef2]).
          rewrite (R2 sf If Ef2). constructor; auto.
        + intros j N. inversion N as [? ? Q|? ? Q|? x ? J Q|? x ? J Q|? p x ? J K Q|? p x ? J K Q]; subst; cbn [n_id n_types n_graph n_included n_props n_reverse] in *.
          * eapply D_ext; [apply T2|]. auto.
          * eapply D_ext; [apply T3|]. auto.
          * eapply D_ext; [apply T4|]. eapply D3; eassumption.
          * eapply D_ext; [apply T5|]. eapply D4; eassumption.
          * eapply D_ext; [apply S6|]. apply D5. exists p. split; [exact J|]. eauto.
          * eapply D6; [eassumption|]. eauto.
    Qed.
    Lemma relabel_l_renames d : renames ren_doc (fun d i => named_in d i) (relabel_l gen asg ide ide) d.
    Proof.
      apply (map_st_ren (fun r x y A => fst x = fst y /\ ren r (snd x) (snd y) A) (fun x i => named (snd x) i)).
      apply Forall_forall. intros x _. apply (pair_ren ren named (relabel_o gen asg ide ide) x). apply relabel_renames.
    Qed.
  End Renames.
End Proofs.

(** ** Undoing a renaming *)
(** [u i] is what [i] stands for: [None] for an identifier given to an anonymous node. *)
Section Undo.
  Variable u : id -> option id.
  Definition un_id (i : id) : id := match u i with Some j => j | None => i end.
  Fixpoint un_o (o : obj) : obj :=
    match o with
    | OVal v => OVal v
    | ONode n => ONode (un_n n)
    | OList l => OList (map (fun x => (fst x, un_o (snd x))) l)
    end
  with un_n (n : node) : node :=
    match n with
    | MkNode i ts g inc ps rs =>
        MkNode (match i with Some i => u i | None => None end)
          (match ts with Some l => Some (map un_id l) | None => None end)
          (match g with Some l => Some (map (fun x => (fst x, un_o (snd x))) l) | None => None end)
          (match inc with Some l => Some (map (fun x => (fst x, un_n (snd x))) l) | None => None end)
          (map (fun p => (fst p, map (fun x => (fst x, un_o (snd x))) (snd p))) ps)
          (match rs with Some l => Some (map (fun p => (fst p, map (fun x => (fst x, un_n (snd x))) (snd p))) l) | None => None end)
    end.
  Definition un_i (x : iobj) : iobj := (fst x, un_o (snd x)).
  Definition un_in (x : inode) : inode := (fst x, un_n (snd x)).
  Lemma un_n_eq i ts g inc ps rs : un_n (MkNode i ts g inc ps rs) =
    MkNode (match i with Some i => u i | None => None end) (option_map (map un_id) ts) (option_map (map un_i) g) (option_map (map un_in) inc)
      (map (fun p => (fst p, map un_i (snd p))) ps) (option_map (map (fun p => (fst p, map un_in (snd p)))) rs).
  Proof. reflexivity. Qed.

  Lemma reordered_map {A B} (f : A -> B) (R : A -> A -> Prop) (S : B -> B -> Prop) l m :
    (forall x y, In x l -> R x y -> S (f x) (f y)) -> reordered R l m -> reordered S (map f l) (map f m).
  Proof.
    intros H [m' P F]. exists (map f m'); [apply Permutation_map, P|]. clear P. induction F; cbn; constructor.
    - apply H; [left; reflexivity|assumption].
    - apply IHF. intros; apply H; [right|]; assumption.
  Qed.
  Lemma both_map {A B} (f : A -> B) (R : A -> A -> Prop) (S : B -> B -> Prop) a b :
    (forall x y, a = Some x -> R x y -> S (f x) (f y)) -> both R a b -> both S (option_map f a) (option_map f b).
  Proof. intros H Bo. destruct Bo as [|x y Rxy]; cbn; constructor. apply H; [reflexivity|exact Rxy]. Qed.
  Lemma same_un : (forall a b, same a b -> same (un_o a) (un_o b)) /\ (forall a b, same_node a b -> same_node (un_n a) (un_n b)).
  Proof.
    apply (obj_node_ind (fun a => forall b, same a b -> same (un_o a) (un_o b)) (fun a => forall b, same_node a b -> same_node (un_n a) (un_n b))).
    - intros v b H. inversion H; subst. cbn. assumption.
    - intros n IH b H. inversion H; subst. cbn. constructor. auto.
    - intros l IH b H. inversion H as [| |? m F]; subst. cbn. constructor. clear H.
      induction F as [|x y l m [E X] F IHF]; cbn; [constructor|]. inversion IH; subst. constructor; [cbn; split; auto|auto].
    - intros i ts g inc ps rs Hg Hi Hp Hr b H. inversion H as [? ? ts' ? g' ? inc' ? ps' ? rs' Ht Bg Bi Op Br]; subst. rewrite !un_n_eq. constructor.
      + eapply both_map; [|exact Ht]. intros x y _ R. eapply reordered_map; [|exact R]. congruence.
      + eapply both_map; [|exact Bg]. intros x y -> R. eapply reordered_map; [|exact R]. intros a b I [E X]. cbn. split; [exact E|]. apply (Forall_in _ _ _ Hg I), X.
      + eapply both_map; [|exact Bi]. intros x y -> R. eapply reordered_map; [|exact R]. intros a b I [E X]. cbn. split; [exact E|]. apply (Forall_in _ _ _ Hi I), X.
      + eapply reordered_map; [|exact Op]. intros p q I [E X]. cbn. split; [exact E|]. eapply reordered_map; [|exact X]. intros a b J [E' X']. cbn. split; [exact E'|].
        apply (Forall_in _ _ _ (Forall_in _ _ _ Hp I) J), X'.
      + eapply both_map; [|exact Br]. intros x y -> R. eapply reordered_map; [|exact R].
        intros p q I [E X]. cbn. split; [exact E|]. eapply reordered_map; [|exact X]. intros a b J [E' X']. cbn. split; [exact E'|].
        apply (Forall_in _ _ _ (Forall_in _ _ _ Hr I) J), X'.
  Qed.

  (** A renaming is undone by [u] when [u] is its inverse. *)
  Section Inverse.
    Variable f : string -> id.
    Definition undone {X Y} (un : Y -> X) (Nm : X -> id -> Prop) (R : X -> Y -> list id -> Prop) (x : X) : Prop :=
      forall y A, R x y A -> (forall i, In i A -> u i = None) -> (forall i, Nm x i -> u (ren_id f i) = Some i) -> un y = x.
    Lemma each_undone {X Y} (un : Y -> X) Nm R l : Forall (undone un Nm R) l -> undone (map un) (fun l i => exists x, In x l /\ Nm x i) (each R) l.
    Proof.
      intros H. induction H as [|x l Hx Hl IH]; intros y A E HA HN; inversion E; subst; cbn; [reflexivity|]. f_equal.
      - eapply Hx; [eassumption| |]; intros i J; [apply HA, in_or_app; left; exact J|]. apply HN. exists x. split; [left; reflexivity|exact J].
      - eapply IH; [eassumption| |]; [intros i J; apply HA, in_or_app; right; exact J|]. intros i (z & J & N). apply HN. exists z. split; [right; exact J|exact N].
    Qed.
    Lemma opt_undone {X Y} (un : Y -> X) Nm R o : Forall (undone un Nm R) (opt_list o) ->
      undone (option_map (map un)) (fun o i => exists x, In x (opt_list o) /\ Nm x i) (each_opt R) o.
    Proof.
      intros H y A E HA HN. inversion E; subst; cbn; [reflexivity|]. f_equal. eapply each_undone; eassumption.
    Qed.
    Lemma pair_undone {K X Y} (un : Y -> X) Nm R (p : K * X) : undone un Nm R (snd p) ->
      undone (fun q : K * Y => (fst q, un (snd q))) (fun p i => Nm (snd p) i) (fun p q A => fst p = fst q /\ R (snd p) (snd q) A) p.
    Proof. intros H q A [E R'] HA HN. rewrite (H _ _ R' HA HN), <- E. destruct p; reflexivity. Qed.
    Lemma ren_undone : (forall o, undone un_o named (ren f) o) /\ (forall n, undone un_n named_node (ren_node f) n).
    Proof.
      assert (Po : forall x : iobj, undone un_o named (ren f) (snd x) -> undone un_i (fun x i => named (snd x) i) (fun (x y : iobj) A => fst x = fst y /\ ren f (snd x) (snd y) A) x).
      { intros x H. exact (pair_undone un_o named (ren f) x H). }
      assert (Pn : forall x : inode, undone un_n named_node (ren_node f) (snd x) -> undone un_in (fun x i => named_node (snd x) i) (fun (x y : inode) A => fst x = fst y /\ ren_node f (snd x) (snd y) A) x).
      { intros x H. exact (pair_undone un_n named_node (ren_node f) x H). }
      apply obj_node_ind.
      - intros v y A R _ _. inversion R; subst. reflexivity.
      - intros n IH y A R HA HN. inversion R; subst. cbn. f_equal. eapply IH; [eassumption|exact HA|]. intros i N. apply HN. constructor. exact N.
      - intros l IH y A R HA HN. inversion R as [| |? l' ? E]; subst. cbn. f_equal.
        apply (each_undone un_i _ _ l (Forall_impl _ Po IH) l' A); [exact E|exact HA|]. intros i (x & J & N). apply HN. econstructor; eassumption.
      - intros i ts g inc ps rs Hg Hi Hp Hr y A R HA HN.
        inversion R as [? i' ? ? g' ? inc' ? ps' ? rs' Ai Ag An Ap Ar Ri Rg Rn Rp Rr]; subst. rewrite un_n_eq.
        assert (HAi : forall j, In j Ai -> u j = None) by (intros; apply HA; rewrite !in_app_iff; tauto).
        assert (HAg : forall j, In j Ag -> u j = None) by (intros; apply HA; rewrite !in_app_iff; tauto).
        assert (HAn : forall j, In j An -> u j = None) by (intros; apply HA; rewrite !in_app_iff; tauto).
        assert (HAp : forall j, In j Ap -> u j = None) by (intros; apply HA; rewrite !in_app_iff; tauto).
        assert (HAr : forall j, In j Ar -> u j = None) by (intros; apply HA; rewrite !in_app_iff; tauto).
        f_equal.
        + inversion Ri; subst; [apply HN, NmId; reflexivity|apply HAi; left; reflexivity].
        + destruct ts as [l|]; [|reflexivity]. cbn. f_equal. rewrite map_map.
          assert (X : forall j, In j l -> un_id (ren_id f j) = j). { intros j J. unfold un_id. rewrite HN by (apply NmType; exact J). reflexivity. }
          clear - X. induction l as [|j l IH]; cbn; [reflexivity|]. f_equal; [apply X; left; reflexivity|]. apply IH. intros; apply X; right; assumption.
        + eapply (opt_undone un_i); [exact (Forall_impl _ Po Hg)|exact Rg|exact HAg|]. intros j (x & J & N). apply HN. eapply NmGraph; eassumption.
        + eapply (opt_undone un_in); [exact (Forall_impl _ Pn Hi)|exact Rn|exact HAn|]. intros j (x & J & N). apply HN. eapply NmIncluded; eassumption.
        + eapply (each_undone (fun p => (fst p, map un_i (snd p))) (fun (p : id * list iobj) i => exists x : iobj, In x (snd p) /\ named (snd x) i)); [|exact Rp|exact HAp|].
          * eapply Forall_impl; [|exact Hp]. intros p H. apply (pair_undone (map un_i) (fun l i => exists x : iobj, In x l /\ named (snd x) i)).
            apply each_undone. exact (Forall_impl _ Po H).
          * intros j (p & J & x & K & N). apply HN. eapply NmProp; eassumption.
        + eapply (opt_undone (fun p => (fst p, map un_in (snd p))) (fun (p : id * list inode) i => exists x : inode, In x (snd p) /\ named_node (snd x) i)); [|exact Rr|exact HAr|].
          * eapply Forall_impl; [|exact Hr]. intros p H. apply (pair_undone (map un_in) (fun l i => exists x : inode, In x l /\ named_node (snd x) i)).
            apply each_undone. exact (Forall_impl _ Pn H).
          * intros j (p & J & x & K & N). apply HN. eapply NmReverse; eassumption.
    Qed.
    Lemma ren_doc_undone d d' A : ren_doc f d d' A -> (forall i, In i A -> u i = None) -> (forall i, named_in d i -> u (ren_id f i) = Some i) -> map un_i d' = d.
    Proof.
      intros R HA HN. eapply (each_undone un_i (fun x i => named (snd x) i)); [|exact R|exact HA|exact HN].
      apply Forall_forall. intros x _. exact (pair_undone un_o named (ren f) x (proj1 ren_undone (snd x))).
    Qed.
  End Inverse.

  (** ** Collecting a set again loses nothing *)
  Section Collapse.
    Variables (fin rnd : list word -> N) (gen : nat -> id) (asg : env -> id -> id * env).
    Definition kept {X Y} (un : Y -> X) (W : Y -> Prop) (f f' : env -> X -> Y * env) (x : X) : Prop :=
      forall s y s', f s x = (y, s') -> un y = x -> f' s x = (y, s') /\ W y.
    Lemma map_st_kept {X Y} (un : Y -> X) W f f' l : Forall (kept un W f f') l -> kept (map un) (Forall W) (map_st f) (map_st f') l.
    Proof.
      intros H. induction H as [|x l Hx Hl IH]; intros s y s' E U.
      - cbn in E. injection E as <- <-. split; [reflexivity|constructor].
      - cbn in E. fold (map_st f) in E. destruct (f s x) as [y1 s1] eqn:E1. destruct (map_st f s1 l) as [l1 s2] eqn:E2. injection E as <- <-.
        cbn in U. injection U as U1 U2. destruct (Hx _ _ _ E1 U1) as [E1' W1]. destruct (IH _ _ _ E2 U2) as [E2' W2].
        cbn. fold (map_st f'). rewrite E1', E2'. split; [reflexivity|]. constructor; assumption.
    Qed.
    Lemma pair_kept {K X Y} (un : Y -> X) W f f' (p : K * X) : kept un W f f' (snd p) ->
      kept (fun q : K * Y => (fst q, un (snd q))) (fun q => W (snd q)) (fun s p => let (y, s') := f s (snd p) in ((fst p, y), s'))
        (fun s p => let (y, s') := f' s (snd p) in ((fst p, y), s')) p.
    Proof.
      intros H s y s' E U. destruct (f s (snd p)) as [y1 s1] eqn:E1. injection E as <- <-. cbn in U. destruct p as [k x]. cbn in *. injection U as U.
      destruct (H _ _ _ E1 U) as [E1' W1]. rewrite E1'. auto.
    Qed.
    Lemma set_collect {A} (h : A -> N) (e : A -> A -> bool) (R : A -> A -> Prop) l : forall acc,
      (forall x y, In x (acc ++ l) -> In y (acc ++ l) -> e x y = true -> R x y) -> distinct R (acc ++ l) -> fold_left (set_insert h e) l acc = acc ++ l.
    Proof.
      induction l as [|x l IH]; intros acc H D; [rewrite app_nil_r; reflexivity|]. cbn [fold_left].
      replace (acc ++ x :: l) with ((acc ++ [x]) ++ l) in * by (rewrite <- app_assoc; reflexivity).
      assert (N : set_insert h e acc x = acc ++ [x]).
      { unfold set_insert. destruct (existsb _ acc) eqn:X; [|reflexivity]. apply existsb_exists in X. destruct X as (y & I & X).
        apply andb_true_iff in X. destruct X as [_ X]. exfalso.
        assert (Q : ~ R y x).
        { clear - I D. rewrite <- app_assoc in D. induction acc as [|z acc IH]; [destruct I|]. cbn in D. inversion D as [|? ? F O]; subst. destruct I as [->|I].
          - apply (Forall_in _ _ _ F). rewrite in_app_iff. right. left. reflexivity.
          - exact (IH O I). }
        apply Q, H; [rewrite !in_app_iff; auto|rewrite !in_app_iff; cbn; auto|exact X]. }
      rewrite N. apply IH; assumption.
    Qed.
    Lemma distinct_un {X Y} (un : Y -> X) (R : X -> X -> Prop) (S : Y -> Y -> Prop) l : (forall x y, S x y -> R (un x) (un y)) -> distinct R (map un l) -> distinct S l.
    Proof.
      intros H. unfold distinct. induction l as [|x l IH]; cbn; intros D; inversion D as [|? ? F O]; subst; constructor; [|auto].
      apply Forall_forall. intros y I Q. apply (Forall_in _ _ _ F (in_map un _ _ I)), H, Q.
    Qed.
    Lemma collect_o_id l : Forall (fun x => wf (snd x)) l -> distinct same_i l -> collect_o fin rnd l = l.
    Proof.
      intros W D. apply (set_collect _ _ same_i l []); [|exact D]. intros x y I J E. unfold iobj_eqb in E. apply andb_true_iff in E. destruct E as [E1 E2].
      split; [apply opt_streq, E1|]. apply (proj1 (eqb_both fin rnd)) in E2; [exact E2|exact (Forall_in _ _ _ W I)|exact (Forall_in _ _ _ W J)].
    Qed.
    Lemma collect_n_id l : Forall (fun x => wf_node (snd x)) l -> distinct same_in l -> collect_n fin rnd l = l.
    Proof.
      intros W D. apply (set_collect _ _ same_in l []); [|exact D]. intros x y I J E. unfold inode_eqb in E. apply andb_true_iff in E. destruct E as [E1 E2].
      split; [apply opt_streq, E1|]. apply (proj2 (eqb_both fin rnd)) in E2; [exact E2|exact (Forall_in _ _ _ W I)|exact (Forall_in _ _ _ W J)].
    Qed.
    Lemma un_i_same x y : same_i x y -> same_i (un_i x) (un_i y). Proof. intros [E S]. split; [exact E|]. apply same_un, S. Qed.
    Lemma un_in_same x y : same_in x y -> same_in (un_in x) (un_in y). Proof. intros [E S]. split; [exact E|]. apply same_un, S. Qed.

    Lemma map_inj_some {A B} (f : A -> B) a b : option_map f a = Some b -> exists x, a = Some x /\ f x = b.
    Proof. destruct a; cbn; intros E; [injection E as <-; eauto|discriminate]. Qed.
    Lemma relabel_kept : (forall o, wf o -> kept un_o wf (relabel_o gen asg ide ide) (relabel_o gen asg (collect_o fin rnd) (collect_n fin rnd)) o) /\
      (forall n, wf_node n -> kept un_n wf_node (relabel_n gen asg ide ide) (relabel_n gen asg (collect_o fin rnd) (collect_n fin rnd)) n).
    Proof.
      assert (Po : forall x : iobj, (wf (snd x) -> kept un_o wf (relabel_o gen asg ide ide) (relabel_o gen asg (collect_o fin rnd) (collect_n fin rnd)) (snd x)) -> wf (snd x) ->
        kept un_i (fun y : iobj => wf (snd y)) (fun s (x : iobj) => let (o', s') := relabel_o gen asg ide ide s (snd x) in ((fst x, o'), s'))
          (fun s (x : iobj) => let (o', s') := relabel_o gen asg (collect_o fin rnd) (collect_n fin rnd) s (snd x) in ((fst x, o'), s')) x).
      { intros x H W. exact (pair_kept un_o wf _ _ x (H W)). }
      assert (Pn : forall x : inode, (wf_node (snd x) -> kept un_n wf_node (relabel_n gen asg ide ide) (relabel_n gen asg (collect_o fin rnd) (collect_n fin rnd)) (snd x)) -> wf_node (snd x) ->
        kept un_in (fun y : inode => wf_node (snd y)) (fun s (x : inode) => let (o', s') := relabel_n gen asg ide ide s (snd x) in ((fst x, o'), s'))
          (fun s (x : inode) => let (o', s') := relabel_n gen asg (collect_o fin rnd) (collect_n fin rnd) s (snd x) in ((fst x, o'), s')) x).
      { intros x H W. exact (pair_kept un_n wf_node _ _ x (H W)). }
      assert (Fo : forall l : list iobj, Forall (fun x => wf (snd x) -> kept un_o wf (relabel_o gen asg ide ide) (relabel_o gen asg (collect_o fin rnd) (collect_n fin rnd)) (snd x)) l ->
        Forall (fun x => wf (snd x)) l -> Forall (fun x => kept un_i (fun y : iobj => wf (snd y)) (fun s (x : iobj) => let (o', s') := relabel_o gen asg ide ide s (snd x) in ((fst x, o'), s'))
          (fun s (x : iobj) => let (o', s') := relabel_o gen asg (collect_o fin rnd) (collect_n fin rnd) s (snd x) in ((fst x, o'), s')) x) l).
      { intros l H W. apply Forall_forall. intros x I. apply Po; [exact (Forall_in _ _ _ H I)|exact (Forall_in _ _ _ W I)]. }
      assert (Fn : forall l : list inode, Forall (fun x => wf_node (snd x) -> kept un_n wf_node (relabel_n gen asg ide ide) (relabel_n gen asg (collect_o fin rnd) (collect_n fin rnd)) (snd x)) l ->
        Forall (fun x => wf_node (snd x)) l -> Forall (fun x => kept un_in (fun y : inode => wf_node (snd y)) (fun s (x : inode) => let (o', s') := relabel_n gen asg ide ide s (snd x) in ((fst x, o'), s'))
          (fun s (x : inode) => let (o', s') := relabel_n gen asg (collect_o fin rnd) (collect_n fin rnd) s (snd x) in ((fst x, o'), s')) x) l).
      { intros l H W. apply Forall_forall. intros x I. apply Pn; [exact (Forall_in _ _ _ H I)|exact (Forall_in _ _ _ W I)]. }
      clear Po Pn. apply obj_node_ind.
      - intros v _ s y s' E U. cbn in E. injection E as <- <-. split; [reflexivity|constructor].
      - intros n IH W s y s' E U. inversion W as [|? Wn|]; subst. rewrite relabel_node_eq in E. destruct (relabel_n gen asg ide ide s n) as [n' s1] eqn:E1. injection E as <- <-.
        cbn in U. injection U as U. destruct (IH Wn _ _ _ E1 U) as [E' W']. rewrite relabel_node_eq, E'. split; [reflexivity|constructor; exact W'].
      - intros l IH W s y s' E U. inversion W as [| |? Wl]; subst. rewrite relabel_list_eq in E.
        match type of E with (let (_, _) := ?t in _) = _ => destruct t as [l' s1] eqn:E1 end. injection E as <- <-.
        cbn in U. injection U as U. destruct (map_st_kept _ _ _ _ _ (Fo l IH Wl) _ _ _ E1 U) as [E' W'].
        rewrite relabel_list_eq. unfold iobj in E'. rewrite E'. split; [reflexivity|constructor; exact W'].
      - intros i ts g inc ps rs Hg Hi Hp Hr W s y s' E U. inversion W as [? ? ? ? ? ? Wg Dg Wi Di Np Wp Nr Wr]; subst. rewrite relabel_mk_eq in E. rewrite relabel_mk_eq.
        match type of E with (let (_, _) := ?t in _) = _ => destruct t as [i' s1] eqn:E1 end.
        match type of E with (let (_, _) := ?t in _) = _ => destruct t as [ts' s2] eqn:E2 end.
        match type of E with (let (_, _) := ?t in _) = _ => destruct t as [g' s3] eqn:E3 end.
        match type of E with (let (_, _) := ?t in _) = _ => destruct t as [inc' s4] eqn:E4 end.
        match type of E with (let (_, _) := ?t in _) = _ => destruct t as [ps' s5] eqn:E5 end.
        match type of E with (let (_, _) := ?t in _) = _ => destruct t as [rs' s6] eqn:E6 end.
        injection E as <- <-. rewrite un_n_eq in U. injection U as Ui Ut Ug Un Up Ur.
        assert (X3 : match g with Some l => let (l', s') := map_st (fun s (x : option string * obj) => let (o', s') := relabel_o gen asg (collect_o fin rnd) (collect_n fin rnd) s (snd x) in ((fst x, o'), s')) s2 l in (Some (collect_o fin rnd l'), s')
                     | None => (None, s2) end = (g', s3) /\ Forall (fun x => wf (snd x)) (opt_list g') /\ distinct same_i (opt_list g')).
        { destruct g as [l|]; [|injection E3 as <- <-; repeat split; constructor].
          match type of E3 with (let (_, _) := ?t in _) = _ => destruct t as [l' s'] eqn:E3' end. injection E3 as <- <-. cbn in Ug. injection Ug as Ug.
          destruct (map_st_kept _ _ _ _ _ (Fo l Hg Wg) _ _ _ E3' Ug) as [E' W']. unfold iobj in E'. rewrite E'.
          assert (D' : distinct same_i l'). { apply (distinct_un un_i same_i same_i); [exact un_i_same|]. unfold ide in Ug. rewrite Ug. exact Dg. }
          rewrite collect_o_id; [|exact W'|exact D']. repeat split; assumption. }
        assert (X4 : match inc with Some l => let (l', s') := map_st (fun s (x : option string * node) => let (o', s') := relabel_n gen asg (collect_o fin rnd) (collect_n fin rnd) s (snd x) in ((fst x, o'), s')) s3 l in (Some (collect_n fin rnd l'), s')
                     | None => (None, s3) end = (inc', s4) /\ Forall (fun x => wf_node (snd x)) (opt_list inc') /\ distinct same_in (opt_list inc')).
        { destruct inc as [l|]; [|injection E4 as <- <-; repeat split; constructor].
          match type of E4 with (let (_, _) := ?t in _) = _ => destruct t as [l' s'] eqn:E4' end. injection E4 as <- <-. cbn in Un. injection Un as Un.
          destruct (map_st_kept _ _ _ _ _ (Fn l Hi Wi) _ _ _ E4' Un) as [E' W']. unfold inode in E'. rewrite E'.
          assert (D' : distinct same_in l'). { apply (distinct_un un_in same_in same_in); [exact un_in_same|]. unfold ide in Un. rewrite Un. exact Di. }
          rewrite collect_n_id; [|exact W'|exact D']. repeat split; assumption. }
        destruct X3 as (X3 & Wg' & Dg'), X4 as (X4 & Wi' & Di'). rewrite X3, X4.
        assert (Kp : Forall (kept (fun q : id * list iobj => (fst q, map un_i (snd q))) (fun q => Forall (fun y : iobj => wf (snd y)) (snd q))
            (fun s (p : id * list iobj) => let (l', s') := map_st (fun s (x : iobj) => let (o', s') := relabel_o gen asg ide ide s (snd x) in ((fst x, o'), s')) s (snd p) in ((fst p, l'), s'))
            (fun s (p : id * list iobj) => let (l', s') := map_st (fun s (x : iobj) => let (o', s') := relabel_o gen asg (collect_o fin rnd) (collect_n fin rnd) s (snd x) in ((fst x, o'), s')) s (snd p) in ((fst p, l'), s'))) ps).
        { apply Forall_forall. intros p I. apply (pair_kept (map un_i) (Forall (fun y : iobj => wf (snd y)))). apply map_st_kept.
          apply Fo; [exact (Forall_in _ _ _ Hp I)|exact (Forall_in _ _ _ Wp I)]. }
        destruct (map_st_kept _ _ _ _ _ Kp _ _ _ E5 Up) as [X5 Wp']. unfold iobj in X5. rewrite X5.
        assert (X6 : match rs with
          | Some l => let (l', s') := map_st (fun s (p : id * list (option string * node)) => let (l', s') := map_st (fun s (x : option string * node) => let (o', s') := relabel_n gen asg (collect_o fin rnd) (collect_n fin rnd) s (snd x) in ((fst x, o'), s')) s (snd p) in ((fst p, l'), s')) s5 l in (Some l', s')
          | None => (None, s5) end = (rs', s6) /\ Forall (fun p => Forall (fun x => wf_node (snd x)) (snd p)) (opt_list rs') /\ map fst (opt_list rs') = map fst (opt_list rs)).
        { destruct rs as [l|]; [|injection E6 as <- <-; repeat split; constructor].
          match type of E6 with (let (_, _) := ?t in _) = _ => destruct t as [l' s'] eqn:E6' end. injection E6 as <- <-. cbn in Ur. injection Ur as Ur.
          assert (Kr : Forall (kept (fun q : id * list inode => (fst q, map un_in (snd q))) (fun q => Forall (fun y : inode => wf_node (snd y)) (snd q))
            (fun s (p : id * list inode) => let (l', s') := map_st (fun s (x : inode) => let (o', s') := relabel_n gen asg ide ide s (snd x) in ((fst x, o'), s')) s (snd p) in ((fst p, l'), s'))
            (fun s (p : id * list inode) => let (l', s') := map_st (fun s (x : inode) => let (o', s') := relabel_n gen asg (collect_o fin rnd) (collect_n fin rnd) s (snd x) in ((fst x, o'), s')) s (snd p) in ((fst p, l'), s'))) l).
          { apply Forall_forall. intros p I. apply (pair_kept (map un_in) (Forall (fun y : inode => wf_node (snd y)))). apply map_st_kept.
            apply Fn; [exact (Forall_in _ _ _ Hr I)|exact (Forall_in _ _ _ Wr I)]. }
          destruct (map_st_kept _ _ _ _ _ Kr _ _ _ E6' Ur) as [E' W']. unfold inode in E'. rewrite E'. split; [reflexivity|]. split; [exact W'|].
          cbn. rewrite <- Ur, map_map. reflexivity. }
        destruct X6 as (X6 & Wr' & Kr'). rewrite X6. split; [reflexivity|]. constructor; try assumption.
        + rewrite <- Up, map_map in Np. exact Np.
        + rewrite Kr'. exact Nr.
    Qed.
    Lemma relabel_l_kept d s d' s' : Forall (fun x => wf (snd x)) d -> distinct same_i d ->
      relabel_l gen asg ide ide s d = (d', s') -> map un_i d' = d ->
      relabel_l gen asg (collect_o fin rnd) (collect_n fin rnd) s d = (d', s') /\ collect_o fin rnd d' = d' /\ Forall (fun x => wf (snd x)) d' /\ distinct same_i d'.
    Proof.
      intros W D E U. assert (D' : distinct same_i d') by (apply (distinct_un un_i same_i same_i); [exact un_i_same|rewrite U; exact D]).
      destruct (map_st_kept un_i (fun y => wf (snd y)) (fun s (x : iobj) => let (o', s') := relabel_o gen asg ide ide s (snd x) in ((fst x, o'), s'))
          (fun s (x : iobj) => let (o', s') := relabel_o gen asg (collect_o fin rnd) (collect_n fin rnd) s (snd x) in ((fst x, o'), s')) d) with (s := s) (y := d') (s' := s') as [E' W'].
      - apply Forall_forall. intros x I. exact (pair_kept un_o wf _ _ x (proj1 relabel_kept _ (Forall_in _ _ _ W I))).
      - exact E.
      - exact U.
      - split; [exact E'|]. split; [apply collect_o_id; assumption|]. split; assumption.
    Qed.
  End Collapse.
End Undo.

(** Proofs about the application programming interface. *)
From Verif Require Import Prelude Json Str Keyword Enums LangTag LangString Container Stack ContextSyntax Ctx Inverse Process
  Object ObjectEq ObjectJson Compare Relabel RelabelProofs Flatten Rdf CompactIri Expand Compact Processor.

(** ** Sets *)
Section Sets.
  Variables fin rnd : list word -> N.
  Lemma eqb_same x y : wf (snd x) -> wf (snd y) -> (iobj_eqb fin rnd x y = true <-> same_i x y).
  Proof. intros Wx Wy. unfold iobj_eqb, same_i. rewrite andb_true_iff, opt_streq, (proj1 (eqb_both fin rnd) _ _ Wx Wy). reflexivity. Qed.
  Lemma collect_incl (l : list iobj) : forall acc : list iobj, incl (fold_left (set_insert (fun x => rnd (iobj_words fin x)) (iobj_eqb fin rnd)) l acc) (acc ++ l).
  Proof.
    induction l as [|x l IH]; intros acc y I; cbn [fold_left] in I; [rewrite app_nil_r; exact I|].
    apply IH in I. apply in_app_or in I. apply in_or_app. destruct I as [I|I]; [|right; right; exact I].
    unfold set_insert in I. match type of I with context [existsb ?f acc] => destruct (existsb f acc) end; [left; exact I|]. apply in_app_or in I. destruct I as [I|[<-|[]]]; [left; exact I|right; left; reflexivity].
  Qed.
  Lemma collect_covers (l : list iobj) : forall acc : list iobj, Forall (fun x => wf (snd x)) (acc ++ l) -> forall x : iobj, In x (acc ++ l) ->
    exists y, In y (fold_left (set_insert (fun x => rnd (iobj_words fin x)) (iobj_eqb fin rnd)) l acc) /\ same_i y x.
  Proof.
    induction l as [|x l IH]; intros acc W z I; cbn [fold_left].
    { rewrite app_nil_r in I. exists z. split; [exact I|]. split; [reflexivity|apply same_refl]. }
    assert (K : exists w, In w (set_insert (fun x => rnd (iobj_words fin x)) (iobj_eqb fin rnd) acc x ++ l) /\ same_i w z).
    { unfold set_insert. match goal with |- context [existsb ?f acc] => destruct (existsb f acc) eqn:E end.
      - apply in_app_or in I. destruct I as [I|[<-|I]].
        + exists z. split; [apply in_or_app; left; exact I|]. split; [reflexivity|apply same_refl].
        + apply existsb_exists in E. destruct E as (w & Iw & E). apply andb_true_iff in E. exists w. split; [apply in_or_app; left; exact Iw|].
          apply eqb_same; [apply (Forall_in _ _ _ W), in_or_app; left; exact Iw|apply (Forall_in _ _ _ W), in_or_app; right; left; reflexivity|apply E].
        + exists z. split; [apply in_or_app; right; exact I|]. split; [reflexivity|apply same_refl].
      - exists z. split; [rewrite <- app_assoc; exact I|]. split; [reflexivity|apply same_refl]. }
    destruct K as (w & Iw & Sw).
    assert (W' : Forall (fun x => wf (snd x)) (set_insert (fun x => rnd (iobj_words fin x)) (iobj_eqb fin rnd) acc x ++ l)).
    { apply Forall_forall. intros v Iv. apply (Forall_in _ _ _ W). unfold set_insert in Iv. match type of Iv with context [existsb ?f acc] => destruct (existsb f acc) end; apply in_app_or in Iv; apply in_or_app.
      - destruct Iv as [Iv|Iv]; [left; exact Iv|right; right; exact Iv].
      - destruct Iv as [Iv|Iv]; [|right; right; exact Iv]. apply in_app_or in Iv. destruct Iv as [Iv|[<-|[]]]; [left; exact Iv|right; left; reflexivity]. }
    destruct (IH _ W' w Iw) as (y & Iy & Sy).
    exists y. split; [exact Iy|]. destruct Sw as [E1 S1], Sy as [E2 S2]. split; [congruence|]. eapply same_trans; eassumption.
  Qed.
End Sets.

(** ** Canonical forms *)
(** [renumbered ci o o']: [o'] is [o], where numbers and JSON literals may be replaced by their
    canonical forms. *)
Inductive renumbered_value (ci : canon_io) : value -> value -> Prop :=
| RnSame v : renumbered_value ci v v
| RnNum x t : renumbered_value ci (VLit (LNum x) t) (VLit (LNum (canon_num ci x)) t)
| RnJson j : renumbered_value ci (VJson j) (VJson (canon_json ci j)).
Inductive renumbered (ci : canon_io) : obj -> obj -> Prop :=
| RnVal v v' : renumbered_value ci v v' -> renumbered ci (OVal v) (OVal v')
| RnNode n n' : renumbered_node ci n n' -> renumbered ci (ONode n) (ONode n')
| RnList l l' : Forall2 (fun x y => fst x = fst y /\ renumbered ci (snd x) (snd y)) l l' -> renumbered ci (OList l) (OList l')
with renumbered_node (ci : canon_io) : node -> node -> Prop :=
| RnMk i ts g g' inc inc' ps ps' rs rs' :
    Forall2 (fun x y => fst x = fst y /\ renumbered ci (snd x) (snd y)) (opt_list g) (opt_list g') -> is_some g = is_some g' ->
    Forall2 (fun x y => fst x = fst y /\ renumbered_node ci (snd x) (snd y)) (opt_list inc) (opt_list inc') -> is_some inc = is_some inc' ->
    Forall2 (fun p q => fst p = fst q /\ Forall2 (fun x y => fst x = fst y /\ renumbered ci (snd x) (snd y)) (snd p) (snd q)) ps ps' ->
    Forall2 (fun p q => fst p = fst q /\ Forall2 (fun x y => fst x = fst y /\ renumbered_node ci (snd x) (snd y)) (snd p) (snd q)) (opt_list rs) (opt_list rs') ->
    is_some rs = is_some rs' ->
    renumbered_node ci (MkNode i ts g inc ps rs) (MkNode i ts g' inc' ps' rs').

Lemma Forall2_same {A} (R : A -> A -> Prop) l : Forall (fun x => R x x) l -> Forall2 R l l.
Proof. induction 1; constructor; auto. Qed.
Lemma Forall2_map_r {A B} (R : A -> B -> Prop) (f : A -> B) l : Forall (fun x => R x (f x)) l -> Forall2 R l (map f l).
Proof. induction 1; constructor; auto. Qed.
Lemma opt_list_map {A B} (f : A -> B) (o : option (list A)) : opt_list (option_map (map f) o) = map f (opt_list o).
Proof. destruct o; reflexivity. Qed.
Lemma is_some_map {A B} (f : A -> B) (o : option A) : is_some o = is_some (option_map f o).
Proof. destruct o; reflexivity. Qed.

Lemma renumbered_refl ci : (forall o, renumbered ci o o) /\ (forall n, renumbered_node ci n n).
Proof.
  apply obj_node_ind.
  - intros v. repeat constructor.
  - intros n H. constructor. exact H.
  - intros l H. constructor. apply Forall2_same. eapply Forall_impl; [|exact H]. auto.
  - intros i ts g inc ps rs Hg Hi Hp Hr. constructor; try reflexivity; apply Forall2_same.
    + eapply Forall_impl; [|exact Hg]. auto.
    + eapply Forall_impl; [|exact Hi]. auto.
    + eapply Forall_impl; [|exact Hp]. intros p P. split; [reflexivity|]. apply Forall2_same. eapply Forall_impl; [|exact P]. auto.
    + eapply Forall_impl; [|exact Hr]. intros p P. split; [reflexivity|]. apply Forall2_same. eapply Forall_impl; [|exact P]. auto.
Qed.
Lemma canon_renumbered ci : (forall o, renumbered ci o (canon_o ci o)) /\ (forall n, renumbered_node ci n (canon_n ci n)).
Proof.
  apply obj_node_ind.
  - intros v. cbn. constructor. destruct v as [[]| |]; cbn; constructor.
  - intros n H. cbn. constructor. exact H.
  - intros l H. cbn. constructor. apply Forall2_map_r. eapply Forall_impl; [|exact H]. auto.
  - intros i ts g inc ps rs Hg Hi Hp Hr. cbn. constructor; try reflexivity; rewrite ?opt_list_map; try (apply is_some_map).
    + apply Forall2_same. apply Forall_forall. intros x _. split; [reflexivity|apply renumbered_refl].
    + apply Forall2_same. apply Forall_forall. intros x _. split; [reflexivity|apply renumbered_refl].
    + apply Forall2_map_r. eapply Forall_impl; [|exact Hp]. intros p P. split; [reflexivity|]. cbn. apply Forall2_map_r. eapply Forall_impl; [|exact P]. auto.
    + apply Forall2_map_r. eapply Forall_impl; [|exact Hr]. intros p P. split; [reflexivity|]. cbn. apply Forall2_map_r. eapply Forall_impl; [|exact P]. auto.
Qed.
Lemma Forall_mapped {A B} (P : B -> Prop) (f : A -> B) l : Forall (fun x => P (f x)) l -> Forall P (map f l).
Proof. induction 1; constructor; auto. Qed.
Lemma canon_wf ci : (forall o, wf o -> wf (canon_o ci o)) /\ (forall n, wf_node n -> wf_node (canon_n ci n)).
Proof.
  apply obj_node_ind.
  - intros v _. constructor.
  - intros n IH W. inversion W; subst. constructor. auto.
  - intros l IH W. inversion W as [| |? F]; subst. cbn. constructor. apply Forall_mapped. apply Forall_forall. intros x I. exact (Forall_in _ _ _ IH I (Forall_in _ _ _ F I)).
  - intros i ts g inc ps rs Hg Hi Hp Hr W. inversion W as [? ? ? ? ? ? Wg Dg Wi Di Np Wp Nr Wr]; subst. cbn. constructor; try assumption; rewrite ?opt_list_map, ?map_map.
    + exact Np.
    + apply Forall_mapped. apply Forall_forall. intros p I. cbn. apply Forall_mapped. apply Forall_forall. intros x J. cbn. exact (Forall_in _ _ _ (Forall_in _ _ _ Hp I) J (Forall_in _ _ _ (Forall_in _ _ _ Wp I) J)).
    + exact Nr.
    + apply Forall_mapped. apply Forall_forall. intros p I. cbn. apply Forall_mapped. apply Forall_forall. intros x J. cbn. exact (Forall_in _ _ _ (Forall_in _ _ _ Hr I) J (Forall_in _ _ _ (Forall_in _ _ _ Wr I) J)).
Qed.

(** ** Documents that only differ by the writing of numbers *)
(** [alike ci o o']: the objects are the same but for numbers and JSON literals, which have the
    same canonical forms; and they have neither graphs nor included nodes. *)
Inductive alike_value (ci : canon_io) : value -> value -> Prop :=
| AlSame v : alike_value ci v v
| AlNum x y t : canon_num ci x = canon_num ci y -> alike_value ci (VLit (LNum x) t) (VLit (LNum y) t)
| AlJson i j : canon_json ci i = canon_json ci j -> alike_value ci (VJson i) (VJson j).
Inductive alike (ci : canon_io) : obj -> obj -> Prop :=
| AlVal v v' : alike_value ci v v' -> alike ci (OVal v) (OVal v')
| AlNode n n' : alike_node ci n n' -> alike ci (ONode n) (ONode n')
| AlList l l' : Forall2 (fun x y => fst x = fst y /\ alike ci (snd x) (snd y)) l l' -> alike ci (OList l) (OList l')
with alike_node (ci : canon_io) : node -> node -> Prop :=
| AlMk i ts ps ps' rs rs' :
    Forall2 (fun p q => fst p = fst q /\ Forall2 (fun x y => fst x = fst y /\ alike ci (snd x) (snd y)) (snd p) (snd q)) ps ps' ->
    Forall2 (fun p q => fst p = fst q /\ Forall2 (fun x y => fst x = fst y /\ alike_node ci (snd x) (snd y)) (snd p) (snd q)) (opt_list rs) (opt_list rs') ->
    is_some rs = is_some rs' ->
    alike_node ci (MkNode i ts None None ps rs) (MkNode i ts None None ps' rs').
Lemma map_eq2 {A B C} (R : A -> B -> Prop) (f : A -> C) (g : B -> C) l l' : Forall2 R l l' -> Forall (fun x => forall y, R x y -> f x = g y) l -> map f l = map g l'.
Proof. induction 1; intros F; inversion F; subst; cbn; f_equal; auto. Qed.
Lemma alike_canon ci : (forall o o', alike ci o o' -> canon_o ci o = canon_o ci o') /\ (forall n n', alike_node ci n n' -> canon_n ci n = canon_n ci n').
Proof.
  apply obj_node_ind.
  - intros v o' A. inversion A as [? v' V| |]; subst. cbn. f_equal. inversion V; subst; cbn; congruence.
  - intros n IH o' A. inversion A; subst. cbn. f_equal. auto.
  - intros l IH o' A. inversion A as [| |? l' F]; subst. cbn. f_equal. eapply map_eq2; [exact F|]. eapply Forall_impl; [|exact IH]. intros x H y [E S]. rewrite E. f_equal. auto.
  - intros i ts g inc ps rs Hg Hi Hp Hr n' A. inversion A as [? ? ? ps' ? rs' Fp Fr Er]; subst. cbn. f_equal.
    + eapply map_eq2; [exact Fp|]. eapply Forall_impl; [|exact Hp]. intros p H q [E S]. rewrite E. f_equal. eapply map_eq2; [exact S|]. eapply Forall_impl; [|exact H]. intros x Hx y [E' S']. rewrite E'. f_equal. auto.
    + assert (M : map (fun p => (fst p, map (fun x => (fst x, canon_n ci (snd x))) (snd p))) (opt_list rs) = map (fun p => (fst p, map (fun x => (fst x, canon_n ci (snd x))) (snd p))) (opt_list rs')).
      { eapply map_eq2; [exact Fr|]. eapply Forall_impl; [|exact Hr]. intros p H q [E S]. rewrite E. f_equal. eapply map_eq2; [exact S|]. eapply Forall_impl; [|exact H]. intros x Hx y [E' S']. rewrite E'. f_equal. auto. }
      destruct rs, rs'; cbn in *; try discriminate; [f_equal; exact M|reflexivity].
Qed.
Lemma map_st_rel {S A B A' B'} (R : A -> A' -> Prop) (Q : B -> B' -> Prop) (f : S -> A -> B * S) (g : S -> A' -> B' * S) l l' : Forall2 R l l' ->
  Forall (fun x => forall x' s, R x x' -> Q (fst (f s x)) (fst (g s x')) /\ snd (f s x) = snd (g s x')) l ->
  forall s, Forall2 Q (fst (map_st f s l)) (fst (map_st g s l')) /\ snd (map_st f s l) = snd (map_st g s l').
Proof.
  induction 1 as [|x x' l l' Rx _ IH]; intros F s; [split; constructor|]. inversion F as [|? ? Fx Fl]; subst. cbn.
  destruct (Fx x' s Rx) as [Q1 E1]. destruct (f s x) as [y s1], (g s x') as [y' s1']. cbn in Q1, E1. subst s1'.
  destruct (IH Fl s1) as [Q2 E2]. destruct (map_st f s1 l) as [m s2], (map_st g s1 l') as [m' s2']. cbn in *. subst. split; [constructor; auto|reflexivity].
Qed.
Section Alike.
  Variables (ci : canon_io) (gen : nat -> id) (asg : env -> id -> id * env) (co : list iobj -> list iobj) (cn : list inode -> list inode).
  Lemma pair_rel {A A' B B'} (R : A -> A' -> Prop) (Q : B -> B' -> Prop) (f : env -> A -> B * env) (g : env -> A' -> B' * env) (x : option string * A) :
    (forall x' s, R (snd x) x' -> Q (fst (f s (snd x))) (fst (g s x')) /\ snd (f s (snd x)) = snd (g s x')) ->
    forall (x' : option string * A') s, fst x = fst x' /\ R (snd x) (snd x') ->
    (fun y y' : option string * _ => fst y = fst y' /\ Q (snd y) (snd y')) (fst (let (o', s') := f s (snd x) in ((fst x, o'), s'))) (fst (let (o', s') := g s (snd x') in ((fst x', o'), s'))) /\
    snd (let (o', s') := f s (snd x) in ((fst x, o'), s')) = snd (let (o', s') := g s (snd x') in ((fst x', o'), s')).
  Proof.
    intros H x' s [E Rx]. destruct (H (snd x') s Rx) as [Q1 E1]. destruct (f s (snd x)) as [y s1], (g s (snd x')) as [y' s1']. cbn in *. subst. auto.
  Qed.
  Lemma alike_relabel :
    (forall o o' s, alike ci o o' -> alike ci (fst (relabel_o gen asg co cn s o)) (fst (relabel_o gen asg co cn s o')) /\ snd (relabel_o gen asg co cn s o) = snd (relabel_o gen asg co cn s o')) /\
    (forall n n' s, alike_node ci n n' -> alike_node ci (fst (relabel_n gen asg co cn s n)) (fst (relabel_n gen asg co cn s n')) /\ snd (relabel_n gen asg co cn s n) = snd (relabel_n gen asg co cn s n')).
  Proof.
    apply obj_node_ind.
    - intros v o' s A. inversion A; subst. cbn. auto.
    - intros n IH o' s A. inversion A as [|? n' An|]; subst. rewrite !relabel_node_eq. destruct (IH n' s An) as [Q E].
      destruct (relabel_n gen asg co cn s n) as [m s1], (relabel_n gen asg co cn s n') as [m' s1']. cbn in *. split; [constructor; exact Q|exact E].
    - intros l IH o' s A. inversion A as [| |? l' F]; subst. rewrite !relabel_list_eq.
      pose proof (map_st_rel _ (fun y y' => fst y = fst y' /\ alike ci (snd y) (snd y'))
        (fun s (x : iobj) => let (o', s') := relabel_o gen asg co cn s (snd x) in ((fst x, o'), s')) (fun s (x : iobj) => let (o', s') := relabel_o gen asg co cn s (snd x) in ((fst x, o'), s')) l l' F) as M.
      destruct M with (s := s) as [Q E].
      { eapply Forall_impl; [|exact IH]. intros x H x' s0 Rx. exact (pair_rel (alike ci) (alike ci) (relabel_o gen asg co cn) (relabel_o gen asg co cn) x H x' s0 Rx). }
      unfold iobj in *. destruct (map_st _ s l) as [m s1], (map_st _ s l') as [m' s1']. cbn in *. split; [constructor; exact Q|exact E].
    - intros i ts g inc ps rs Hg Hi Hp Hr n' s A. inversion A as [? ? ? ps' ? rs' Fp Fr Er]; subst. rewrite !relabel_mk_eq.
      destruct (match i with Some i => asg s i | None => gen_next gen s end) as [i' s1].
      destruct (match ts with Some l => let (l', s') := map_st asg s1 l in (Some l', s') | None => (None, s1) end) as [ts' s2].
      pose proof (map_st_rel _ (fun p q => fst p = fst q /\ Forall2 (fun x y => fst x = fst y /\ alike ci (snd x) (snd y)) (snd p) (snd q))
        (fun s (p : id * list iobj) => let (l', s') := map_st (fun s (x : iobj) => let (o', s') := relabel_o gen asg co cn s (snd x) in ((fst x, o'), s')) s (snd p) in ((fst p, l'), s'))
        (fun s (p : id * list iobj) => let (l', s') := map_st (fun s (x : iobj) => let (o', s') := relabel_o gen asg co cn s (snd x) in ((fst x, o'), s')) s (snd p) in ((fst p, l'), s')) ps ps' Fp) as M.
      destruct M with (s := s2) as [Qp Ep].
      { eapply Forall_impl; [|exact Hp]. intros [k1 l1] H [k2 l2] s0 [E F]. cbn [fst snd] in H, E, F |- *. subst k2.
        pose proof (map_st_rel _ (fun y y' => fst y = fst y' /\ alike ci (snd y) (snd y'))
          (fun s (x : iobj) => let (o', s') := relabel_o gen asg co cn s (snd x) in ((fst x, o'), s')) (fun s (x : iobj) => let (o', s') := relabel_o gen asg co cn s (snd x) in ((fst x, o'), s')) _ _ F) as M'.
        destruct M' with (s := s0) as [Q E'].
        { eapply Forall_impl; [|exact H]. intros x Hx x' s' Rx. exact (pair_rel (alike ci) (alike ci) (relabel_o gen asg co cn) (relabel_o gen asg co cn) x Hx x' s' Rx). }
        unfold iobj in *. destruct (map_st _ s0 l1) as [m sa], (map_st _ s0 l2) as [m' sa']. cbn in *. auto. }
      unfold iobj in *. destruct (map_st _ s2 ps) as [ps1 s5], (map_st _ s2 ps') as [ps1' s5']. cbn in Qp, Ep. subst s5'.
      pose proof (map_st_rel _ (fun p q => fst p = fst q /\ Forall2 (fun x y => fst x = fst y /\ alike_node ci (snd x) (snd y)) (snd p) (snd q))
        (fun s (p : id * list inode) => let (l', s') := map_st (fun s (x : inode) => let (o', s') := relabel_n gen asg co cn s (snd x) in ((fst x, o'), s')) s (snd p) in ((fst p, l'), s'))
        (fun s (p : id * list inode) => let (l', s') := map_st (fun s (x : inode) => let (o', s') := relabel_n gen asg co cn s (snd x) in ((fst x, o'), s')) s (snd p) in ((fst p, l'), s')) _ _ Fr) as N.
      destruct N with (s := s5) as [Qr E'].
      { eapply Forall_impl; [|exact Hr]. intros [k1 l1] H [k2 l2] s0 [E F]. cbn [fst snd] in H, E, F |- *. subst k2.
        pose proof (map_st_rel _ (fun y y' => fst y = fst y' /\ alike_node ci (snd y) (snd y'))
          (fun s (x : inode) => let (o', s') := relabel_n gen asg co cn s (snd x) in ((fst x, o'), s')) (fun s (x : inode) => let (o', s') := relabel_n gen asg co cn s (snd x) in ((fst x, o'), s')) _ _ F) as M'.
        destruct M' with (s := s0) as [Q E'].
        { eapply Forall_impl; [|exact H]. intros x Hx x' s' Rx. exact (pair_rel (alike_node ci) (alike_node ci) (relabel_n gen asg co cn) (relabel_n gen asg co cn) x Hx x' s' Rx). }
        unfold inode in *. destruct (map_st _ s0 l1) as [m sa], (map_st _ s0 l2) as [m' sa']. cbn in *. auto. }
      unfold inode in *. destruct rs as [r|], rs' as [r'|]; cbn in Er; try discriminate; cbn [opt_list] in *.
      + destruct (map_st _ s5 r) as [r1 s6], (map_st _ s5 r') as [r1' s6']. cbn in *. split; [constructor; auto|exact E'].
      + cbn. split; [constructor; auto; constructor|reflexivity].
  Qed.
  Lemma alike_relabel_l a b : Forall2 (fun x y => fst x = fst y /\ alike ci (snd x) (snd y)) a b -> forall s,
    Forall2 (fun x y => fst x = fst y /\ alike ci (snd x) (snd y)) (fst (relabel_l gen asg co cn s a)) (fst (relabel_l gen asg co cn s b)) /\
    snd (relabel_l gen asg co cn s a) = snd (relabel_l gen asg co cn s b).
  Proof.
    intros F s. unfold relabel_l.
    refine (map_st_rel (fun x y => fst x = fst y /\ alike ci (snd x) (snd y)) (fun x y => fst x = fst y /\ alike ci (snd x) (snd y))
      (fun s (x : iobj) => let (o', s') := relabel_o gen asg co cn s (snd x) in ((fst x, o'), s')) (fun s (x : iobj) => let (o', s') := relabel_o gen asg co cn s (snd x) in ((fst x, o'), s')) a b F _ s).
    apply Forall_forall. intros x _ x' s0 Rx. exact (pair_rel (alike ci) (alike ci) (relabel_o gen asg co cn) (relabel_o gen asg co cn) x (fun o' s' => proj1 alike_relabel (snd x) o' s') x' s0 Rx).
  Qed.
End Alike.

(** ** Occurrences *)
From Verif Require Import FlattenProofs FlattenSpec.
Lemma Forall2_in_r {A B} (R : A -> B -> Prop) l l' y : Forall2 R l l' -> In y l' -> exists x, In x l /\ R x y.
Proof. induction 1 as [|x y' l l' H F IH]; [intros []|]. intros [<-|I]; [exists x; split; [left; reflexivity|exact H]|]. destruct (IH I) as (x' & I' & H'). exists x'. split; [right; exact I'|exact H']. Qed.
Lemma renumbered_occurs ci :
  (forall o' o a x b z m', renumbered ci o o' -> occurs a x o' b z m' -> exists m, occurs a x o b z m /\ renumbered_node ci m m') /\
  (forall n' n a x b z m', renumbered_node ci n n' -> occurs_node a x n' b z m' -> exists m, occurs_node a x n b z m /\ renumbered_node ci m m').
Proof.
  apply (obj_node_ind
    (fun o' => forall o a x b z m', renumbered ci o o' -> occurs a x o' b z m' -> exists m, occurs a x o b z m /\ renumbered_node ci m m')
    (fun n' => forall n a x b z m', renumbered_node ci n n' -> occurs_node a x n' b z m' -> exists m, occurs_node a x n b z m /\ renumbered_node ci m m')).
  - intros v o a x b z m' R O. inversion O.
  - intros n' IH o a x b z m' R O. inversion R as [|n ? Rn|]; inversion O as [? ? ? ? ? ? On|]; subst. destruct (IH _ _ _ _ _ _ Rn On) as (m & H & Rm). exists m. split; [constructor; exact H|exact Rm].
  - intros l' IH o a x b z m' R O. inversion R as [| |l ? F]; inversion O as [|? ? ? y ? ? ? I O']; subst. destruct (Forall2_in_r _ _ _ _ F I) as (x0 & I0 & E & Rx).
    destruct (Forall_in _ _ _ IH I _ _ _ _ _ _ Rx O') as (m & H & Rm). exists m. split; [|exact Rm]. rewrite <- E in H. eapply OcList; eassumption.
  - intros i ts g' inc' ps' rs' Hg Hi Hp Hr n a x b z m' R O. inversion R as [? ? g ? inc ? ps ? rs ? Fg _ Fi _ Fp Fr _]; subst.
    inversion O as [|? ? ? ? y ? ? ? E I O'|? ? ? y ? ? ? I O'|? ? ? p y ? ? ? I J O'|? ? ? p y ? ? ? I J O']; subst; cbn [n_id n_graph n_included n_props n_reverse] in *.
    + eexists. split; [constructor|exact R].
    + destruct (Forall2_in_r _ _ _ _ Fg I) as (x0 & I0 & E0 & Rx). destruct (Forall_in _ _ _ Hg I _ _ _ _ _ _ Rx O') as (m & H & Rm). exists m. split; [|exact Rm]. rewrite <- E0 in H. eapply OcGraph; eassumption.
    + destruct (Forall2_in_r _ _ _ _ Fi I) as (x0 & I0 & E0 & Rx). destruct (Forall_in _ _ _ Hi I _ _ _ _ _ _ Rx O') as (m & H & Rm). exists m. split; [|exact Rm]. rewrite <- E0 in H. eapply OcIncluded; eassumption.
    + destruct (Forall2_in_r _ _ _ _ Fp I) as (p0 & Ip & _ & Fq). destruct (Forall2_in_r _ _ _ _ Fq J) as (x0 & I0 & E0 & Rx).
      destruct (Forall_in _ _ _ (Forall_in _ _ _ Hp I) J _ _ _ _ _ _ Rx O') as (m & H & Rm). exists m. split; [|exact Rm]. rewrite <- E0 in H. eapply OcProp; eassumption.
    + destruct (Forall2_in_r _ _ _ _ Fr I) as (p0 & Ip & _ & Fq). destruct (Forall2_in_r _ _ _ _ Fq J) as (x0 & I0 & E0 & Rx).
      destruct (Forall_in _ _ _ (Forall_in _ _ _ Hr I) J _ _ _ _ _ _ Rx O') as (m & H & Rm). exists m. split; [|exact Rm]. rewrite <- E0 in H. eapply OcReverse; eassumption.
Qed.
Lemma renumbered_id ci n n' : renumbered_node ci n n' -> n_id n' = n_id n.
Proof. intros R. inversion R; reflexivity. Qed.

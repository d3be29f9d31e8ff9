(** Equality up to a mapping of blank node identifiers: core/src/object/mapped_eq.rs. *)
From Verif Require Import Prelude Json Enums LangTag LangString Str Keyword Container ContextSyntax Ctx Object ObjectEq.
From Coq Require Import Permutation.

(** mapped_eq.rs 184-220 ([Id], [ValidId]). *)
Definition id_meq (f : string -> string) (a b : id) : bool :=
  match a, b with
  | IBlank a, IBlank b => streq (f a) b
  | IIri a, IIri b => streq a b
  | IInvalid a, IInvalid b => streq a b
  | _, _ => false
  end.

(** mapped_eq.rs 77-94 ([Option]) and 238-251 ([opt_mapped_eq]). *)
Definition opt_meq {A} (e : A -> A -> bool) (a b : option A) : bool :=
  match a, b with Some x, Some y => e x y | None, None => true | _, _ => false end.

(** mapped_eq.rs 127-144 (slices): same length, item by item. *)
Definition slice_meq {A} (e : A -> A -> bool) : list A -> list A -> bool :=
  fix go (a b : list A) : bool :=
    match a, b with [], [] => true | x :: a', y :: b' => e x y && go a' b' | _, _ => false end.

(** mapped_eq.rs 222-236 (objects), 253-270 (nodes), 272-338 (properties), 169-182 ([Indexed]),
    143-159 (sets) and 29-58 (the matching, whose control is that of [compare_unordered] of
    multiset.rs); list.rs 159-168. The types of a node are not compared. *)
Fixpoint obj_meq (f : string -> string) (a b : obj) {struct a} : bool :=
  match a, b with
  | OVal v, OVal w => value_eqb v w
  | ONode n, ONode m => node_meq f n m
  | OList l, OList m => slice_meq (fun x y => opt_eqb streq (fst x) (fst y) && obj_meq f (snd x) (snd y)) l m
  | _, _ => false
  end
with node_meq (f : string -> string) (a b : node) {struct a} : bool :=
  match a, b with
  | MkNode i _ g inc ps rs, MkNode i' _ g' inc' ps' rs' =>
      opt_meq (id_meq f) i i'
      && match inc, inc' with
         | Some l, Some m => compare_unordered (fun x y => opt_eqb streq (fst x) (fst y) && node_meq f (snd x) (snd y)) l m
         | None, None => true
         | _, _ => false
         end
      && match g, g' with
         | Some l, Some m => compare_unordered (fun x y => opt_eqb streq (fst x) (fst y) && obj_meq f (snd x) (snd y)) l m
         | None, None => true
         | _, _ => false
         end
      && compare_unordered (fun p q => id_meq f (fst p) (fst q)
           && compare_unordered (fun x y => opt_eqb streq (fst x) (fst y) && obj_meq f (snd x) (snd y)) (snd p) (snd q)) ps ps'
      && match rs, rs' with
         | Some l, Some m => compare_unordered (fun p q => id_meq f (fst p) (fst q)
             && compare_unordered (fun x y => opt_eqb streq (fst x) (fst y) && node_meq f (snd x) (snd y)) (snd p) (snd q)) l m
         | None, None => true
         | _, _ => false
         end
  end.
(** mapped_eq.rs 169-182 for an indexed object, 146-167 for a set of them. *)
Definition iobj_meq (f : string -> string) (x y : iobj) : bool := opt_eqb streq (fst x) (fst y) && obj_meq f (snd x) (snd y).
Definition doc_meq (f : string -> string) (a b : list iobj) : bool := compare_unordered (iobj_meq f) a b.

(** ** Specification *)

(** [a] with every blank node identifier [b] replaced by [f b]. *)
Definition put_id (f : string -> string) (i : id) : id := match i with IBlank b => IBlank (f b) | _ => i end.
Fixpoint put (f : string -> string) (a : obj) : obj :=
  match a with
  | OVal v => OVal v
  | ONode n => ONode (put_node f n)
  | OList l => OList (map (fun x => (fst x, put f (snd x))) l)
  end
with put_node (f : string -> string) (n : node) : node :=
  match n with
  | MkNode i ts g inc ps rs =>
      MkNode (option_map (put_id f) i) (option_map (map (put_id f)) ts)
        (option_map (map (fun x => (fst x, put f (snd x)))) g)
        (option_map (map (fun x => (fst x, put_node f (snd x)))) inc)
        (map (fun p => (put_id f (fst p), map (fun x => (fst x, put f (snd x))) (snd p))) ps)
        (option_map (map (fun p => (put_id f (fst p), map (fun x => (fst x, put_node f (snd x))) (snd p)))) rs)
  end.
(** [a] with its types removed, at any depth. *)
Fixpoint bare_o (a : obj) : obj :=
  match a with
  | OVal v => OVal v
  | ONode n => ONode (bare_n n)
  | OList l => OList (map (fun x => (fst x, bare_o (snd x))) l)
  end
with bare_n (n : node) : node :=
  match n with
  | MkNode i ts g inc ps rs =>
      MkNode i None
        (option_map (map (fun x => (fst x, bare_o (snd x)))) g)
        (option_map (map (fun x => (fst x, bare_n (snd x)))) inc)
        (map (fun p => (fst p, map (fun x => (fst x, bare_o (snd x))) (snd p))) ps)
        (option_map (map (fun p => (fst p, map (fun x => (fst x, bare_n (snd x))) (snd p)))) rs)
  end.
Definition over {A} (g : A -> A) (x : option string * A) : option string * A := (fst x, g (snd x)).

(** ** Proofs *)
Lemma reordered_map {A B} (R : B -> B -> Prop) (g h : A -> B) l m :
  reordered R (map g l) (map h m) <-> reordered (fun x y => R (g x) (h y)) l m.
Proof.
  split.
  - intros [m' P F]. apply Permutation_sym, Permutation_map_inv in P. destruct P as (k & -> & P).
    exists k; [exact P|]. clear P. revert k F. induction l as [|x l IH]; intros [|y k] F; cbn in F; inversion F; subst; constructor; auto.
  - intros [m' P F]. exists (map h m'); [apply Permutation_map, P|]. clear P. induction F; cbn; constructor; auto.
Qed.
Lemma both_map {A B} (R : B -> B -> Prop) (g h : A -> B) a b :
  both R (option_map g a) (option_map h b) <-> both (fun x y => R (g x) (h y)) a b.
Proof. destruct a, b; cbn; split; intros H; inversion H; subst; constructor; assumption. Qed.
Lemma id_meq_spec f a b : id_meq f a b = true <-> put_id f a = b.
Proof. destruct a, b; cbn; rewrite ?streq_true; split; congruence. Qed.
Lemma opt_streq' a b : opt_eqb streq a b = true <-> a = b.
Proof. destruct a, b; cbn; rewrite ?streq_true; split; congruence. Qed.
Lemma opt_meq_id f a b : opt_meq (id_meq f) a b = true <-> option_map (put_id f) a = b.
Proof. destruct a, b; cbn; rewrite ?id_meq_spec; split; congruence. Qed.

Section Mapped.
  Variable f : string -> string.
  Definition F (a : obj) := bare_o (put f a).
  Definition Fn (a : node) := bare_n (put_node f a).
  (** Each relation below is the kernel of two functions into an equivalence. *)
  Lemma kernel {A B} (E : B -> B -> Prop) (g h : A -> B) : (forall x y, E x y -> E y x) -> (forall x y z, E x y -> E y z -> E x z) ->
    forall x y z, E (g x) (h y) -> E (g x) (h z) -> forall w, E (g w) (h y) -> E (g w) (h z).
  Proof. intros Sy Tr x y z A1 A2 w A3. eapply Tr; [exact A3|]. eapply Tr; [apply Sy, A1|exact A2]. Qed.
  Definition same_vals (p q : id * list iobj) : Prop := fst p = fst q /\ reordered same_i (snd p) (snd q).
  Definition same_revs (p q : id * list inode) : Prop := fst p = fst q /\ reordered same_in (snd p) (snd q).
  Lemma same_vals_sym p q : same_vals p q -> same_vals q p.
  Proof. intros [E H]. split; [auto|]. eapply reordered_sym; [|exact H]. intros; apply same_i_sym; assumption. Qed.
  Lemma same_vals_trans p q r : same_vals p q -> same_vals q r -> same_vals p r.
  Proof. intros [E H] [E' H']. split; [congruence|]. eapply reordered_trans; [|exact H|exact H']. intros x y z _ X Y. eapply same_i_trans; eassumption. Qed.
  Lemma same_revs_sym p q : same_revs p q -> same_revs q p.
  Proof. intros [E H]. split; [auto|]. eapply reordered_sym; [|exact H]. intros; apply same_in_sym; assumption. Qed.
  Lemma same_revs_trans p q r : same_revs p q -> same_revs q r -> same_revs p r.
  Proof. intros [E H] [E' H']. split; [congruence|]. eapply reordered_trans; [|exact H|exact H']. intros x y z _ X Y. eapply same_in_trans; eassumption. Qed.

  Lemma set_meq (l m : list iobj) :
    Forall (fun x => forall b, obj_meq f (snd x) b = true <-> same (F (snd x)) (bare_o b)) l ->
    (compare_unordered (fun x y : iobj => opt_eqb streq (fst x) (fst y) && obj_meq f (snd x) (snd y)) l m = true <->
     reordered same_i (map (over F) l) (map (over bare_o) m)).
  Proof.
    intros H. rewrite reordered_map. apply compare_unordered_spec.
    - apply (kernel same_i (over F) (over bare_o)); [exact same_i_sym|exact same_i_trans].
    - intros x y I _. rewrite andb_true_iff, opt_streq'. rewrite Forall_forall in H. rewrite (H x I). reflexivity.
  Qed.
  Lemma set_meq_n (l m : list inode) :
    Forall (fun x => forall b, node_meq f (snd x) b = true <-> same_node (Fn (snd x)) (bare_n b)) l ->
    (compare_unordered (fun x y : inode => opt_eqb streq (fst x) (fst y) && node_meq f (snd x) (snd y)) l m = true <->
     reordered same_in (map (over Fn) l) (map (over bare_n) m)).
  Proof.
    intros H. rewrite reordered_map. apply compare_unordered_spec.
    - apply (kernel same_in (over Fn) (over bare_n)); [exact same_in_sym|exact same_in_trans].
    - intros x y I _. rewrite andb_true_iff, opt_streq'. rewrite Forall_forall in H. rewrite (H x I). reflexivity.
  Qed.

  Lemma meq_both : (forall a b, obj_meq f a b = true <-> same (F a) (bare_o b)) /\
    (forall a b, node_meq f a b = true <-> same_node (Fn a) (bare_n b)).
  Proof.
    apply (obj_node_ind (fun a => forall b, obj_meq f a b = true <-> same (F a) (bare_o b))
      (fun a => forall b, node_meq f a b = true <-> same_node (Fn a) (bare_n b))).
    - intros v [w|m|m]; cbn; try (split; [discriminate|inversion 1]). rewrite value_eqb_spec. split; [constructor; assumption|inversion 1; assumption].
    - intros n IH [w|m|m]; cbn; try (split; [discriminate|inversion 1]). rewrite IH. split; [constructor; assumption|inversion 1; assumption].
    - intros l IH [w|m|m]; try (cbn; split; [discriminate|inversion 1]).
      assert (X : obj_meq f (OList l) (OList m) = true <-> Forall2 same_i (map (over F) l) (map (over bare_o) m)).
      { cbn [obj_meq]. revert m. induction l as [|x l IHl]; intros [|y m]; cbn; try (split; [discriminate|inversion 1]); [split; constructor|].
        inversion IH as [|? ? Hx Hl]; subst. rewrite !andb_true_iff, opt_streq', Hx. fold (slice_meq (fun x y : iobj => opt_eqb streq (fst x) (fst y) && obj_meq f (snd x) (snd y))).
        rewrite (IHl Hl m). split; [intros [[E S] T]; constructor; [split; assumption|assumption]|].
        inversion 1 as [|? ? ? ? [E S] T]; subst. auto. }
      rewrite X. unfold F. cbn [put bare_o]. rewrite map_map. split; [intros G; constructor; exact G|inversion 1; assumption].
    - intros i ts g inc ps rs Hg Hi Hp Hr [i' ts' g' inc' ps' rs'].
      assert (Xg : match g, g' with
         | Some l, Some m => compare_unordered (fun x y : iobj => opt_eqb streq (fst x) (fst y) && obj_meq f (snd x) (snd y)) l m
         | None, None => true | _, _ => false end = true <-> both (reordered same_i) (option_map (map (over F)) g) (option_map (map (over bare_o)) g')).
      { destruct g as [l|], g' as [m|]; cbn; try (split; [discriminate|inversion 1]); [|split; [constructor|reflexivity]].
        rewrite set_meq by exact Hg. split; [constructor; assumption|inversion 1; assumption]. }
      assert (Xi : match inc, inc' with
         | Some l, Some m => compare_unordered (fun x y : inode => opt_eqb streq (fst x) (fst y) && node_meq f (snd x) (snd y)) l m
         | None, None => true | _, _ => false end = true <-> both (reordered same_in) (option_map (map (over Fn)) inc) (option_map (map (over bare_n)) inc')).
      { destruct inc as [l|], inc' as [m|]; cbn; try (split; [discriminate|inversion 1]); [|split; [constructor|reflexivity]].
        rewrite set_meq_n by exact Hi. split; [constructor; assumption|inversion 1; assumption]. }
      set (kp := fun p : id * list iobj => (put_id f (fst p), map (over F) (snd p))).
      set (kq := fun p : id * list iobj => (fst p, map (over bare_o) (snd p))).
      assert (Xp : compare_unordered (fun p q => id_meq f (fst p) (fst q) && compare_unordered (fun x y : iobj => opt_eqb streq (fst x) (fst y) && obj_meq f (snd x) (snd y)) (snd p) (snd q)) ps ps' = true
        <-> reordered same_vals (map kp ps) (map kq ps')).
      { rewrite reordered_map. apply compare_unordered_spec; [apply (kernel same_vals kp kq); [exact same_vals_sym|exact same_vals_trans]|].
        intros p q I _. rewrite andb_true_iff, id_meq_spec. rewrite Forall_forall in Hp. rewrite (set_meq _ _ (Hp p I)). reflexivity. }
      set (rp := fun p : id * list inode => (put_id f (fst p), map (over Fn) (snd p))).
      set (rq := fun p : id * list inode => (fst p, map (over bare_n) (snd p))).
      assert (Xr : match rs, rs' with
         | Some l, Some m => compare_unordered (fun p q => id_meq f (fst p) (fst q)
             && compare_unordered (fun x y : inode => opt_eqb streq (fst x) (fst y) && node_meq f (snd x) (snd y)) (snd p) (snd q)) l m
         | None, None => true | _, _ => false end = true <-> both (reordered same_revs) (option_map (map rp) rs) (option_map (map rq) rs')).
      { destruct rs as [l|], rs' as [m|]; cbn; try (split; [discriminate|inversion 1]); [|split; [constructor|reflexivity]].
        transitivity (reordered same_revs (map rp l) (map rq m)); [|split; [constructor; assumption|inversion 1; assumption]].
        rewrite reordered_map. apply compare_unordered_spec; [apply (kernel same_revs rp rq); [exact same_revs_sym|exact same_revs_trans]|].
        intros p q I _. rewrite andb_true_iff, id_meq_spec. cbn in Hr. rewrite Forall_forall in Hr. rewrite (set_meq_n _ _ (Hr p I)). reflexivity. }
      cbn [node_meq]. rewrite !andb_true_iff, opt_meq_id, Xi, Xg, Xp, Xr.
      assert (N : Fn (MkNode i ts g inc ps rs) = MkNode (option_map (put_id f) i) None (option_map (map (over F)) g) (option_map (map (over Fn)) inc) (map kp ps) (option_map (map rp) rs)).
      { unfold Fn. cbn [put_node bare_n]. f_equal.
        - destruct g; cbn; [|reflexivity]. rewrite map_map. reflexivity.
        - destruct inc; cbn; [|reflexivity]. rewrite map_map. reflexivity.
        - rewrite map_map. apply map_ext. intros p. unfold kp. cbn. rewrite map_map. reflexivity.
        - destruct rs; cbn; [|reflexivity]. rewrite map_map. f_equal. apply map_ext. intros p. unfold rp. cbn. rewrite map_map. reflexivity. }
      rewrite N. cbn [bare_n]. split.
      + intros ((((<- & Bi) & Bg) & Op) & Br). constructor; [constructor|exact Bg|exact Bi|exact Op|exact Br].
      + intros S. inversion S; subst. auto 6.
  Qed.

  (** Removing types keeps sameness. *)
  Lemma same_bare_both : (forall a b, same a b -> same (bare_o a) (bare_o b)) /\ (forall a b, same_node a b -> same_node (bare_n a) (bare_n b)).
  Proof.
    apply (obj_node_ind (fun a => forall b, same a b -> same (bare_o a) (bare_o b)) (fun a => forall b, same_node a b -> same_node (bare_n a) (bare_n b))).
    - intros v b H. inversion H; subst. cbn. exact H.
    - intros n IH b H. inversion H; subst. cbn. constructor. auto.
    - intros l IH b H. inversion H as [| |? m G]; subst. cbn. constructor. clear H.
      induction G as [|x y l m [E X] G IHG]; cbn; constructor.
      + inversion IH; subst. split; cbn; auto.
      + inversion IH; subst. auto.
    - intros i ts g inc ps rs Hg Hi Hp Hr b H. inversion H as [? ? ts' ? g' ? inc' ? ps' ? rs' Ht Bg Bi Op Br]; subst. cbn [bare_n]. constructor.
      + constructor.
      + destruct Bg as [|l m O]; constructor. apply reordered_map. eapply reordered_impl; [|exact O]. cbn. intros x y I _ [E X]. split; [exact E|]. apply (Forall_in _ _ _ Hg I). exact X.
      + destruct Bi as [|l m O]; constructor. apply reordered_map. eapply reordered_impl; [|exact O]. cbn. intros x y I _ [E X]. split; [exact E|]. apply (Forall_in _ _ _ Hi I). exact X.
      + apply reordered_map. eapply reordered_impl; [|exact Op]. cbn. intros p q I _ [E X]. split; [exact E|]. apply reordered_map. eapply reordered_impl; [|exact X].
        cbn. intros x y J _ [E' X']. split; [exact E'|]. apply (Forall_in _ _ _ (Forall_in _ _ _ Hp I) J). exact X'.
      + destruct Br as [|l m O]; constructor. apply reordered_map. eapply reordered_impl; [|exact O]. cbn. intros p q I _ [E X]. split; [exact E|]. apply reordered_map. eapply reordered_impl; [|exact X].
        cbn. intros x y J _ [E' X']. split; [exact E'|]. apply (Forall_in _ _ _ (Forall_in _ _ _ Hr I) J). exact X'.
  Qed.
End Mapped.

(** Without types, nothing is removed. *)
Inductive no_types : obj -> Prop :=
| NT_val v : no_types (OVal v)
| NT_node n : no_types_n n -> no_types (ONode n)
| NT_list l : Forall (fun x => no_types (snd x)) l -> no_types (OList l)
with no_types_n : node -> Prop :=
| NT_n i g inc ps rs :
    (forall l, g = Some l -> Forall (fun x => no_types (snd x)) l) ->
    (forall l, inc = Some l -> Forall (fun x => no_types_n (snd x)) l) ->
    Forall (fun p => Forall (fun x => no_types (snd x)) (snd p)) ps ->
    (forall l, rs = Some l -> Forall (fun p => Forall (fun x => no_types_n (snd x)) (snd p)) l) ->
    no_types_n (MkNode i None g inc ps rs).
Lemma map_same {A} (h : A -> A) l : Forall (fun x => h x = x) l -> map h l = l.
Proof. induction 1; cbn; congruence. Qed.
Lemma no_types_bare : (forall a, no_types a -> bare_o a = a) /\ (forall n, no_types_n n -> bare_n n = n).
Proof.
  assert (O : forall (h : obj -> obj) l, (forall x, In x l -> h (snd x) = snd x) -> map (fun x : iobj => (fst x, h (snd x))) l = l).
  { intros h l H. apply map_same, Forall_forall. intros [k o] I. f_equal. exact (H _ I). }
  assert (N : forall (h : node -> node) l, (forall x, In x l -> h (snd x) = snd x) -> map (fun x : inode => (fst x, h (snd x))) l = l).
  { intros h l H. apply map_same, Forall_forall. intros [k o] I. f_equal. exact (H _ I). }
  apply (obj_node_ind (fun a => no_types a -> bare_o a = a) (fun n => no_types_n n -> bare_n n = n)).
  - reflexivity.
  - intros n IH H. inversion H; subst. cbn. rewrite IH by assumption. reflexivity.
  - intros l IH H. inversion H as [| |? G]; subst. cbn. f_equal. apply O. intros x I. apply (Forall_in _ _ _ IH I). apply (Forall_in _ _ _ G I).
  - intros i ts g inc ps rs Hg Hi Hp Hr H. inversion H as [? ? ? ? ? Ng Ni Np Nr]; subst. cbn. f_equal.
    + destruct g as [l|]; cbn; [|reflexivity]. f_equal. apply O. intros x I. apply (Forall_in _ _ _ Hg I). apply (Forall_in _ _ _ (Ng _ eq_refl) I).
    + destruct inc as [l|]; cbn; [|reflexivity]. f_equal. apply N. intros x I. apply (Forall_in _ _ _ Hi I). apply (Forall_in _ _ _ (Ni _ eq_refl) I).
    + apply map_same, Forall_forall. intros [k vs] I. cbn. f_equal. apply O. intros x J. apply (Forall_in _ _ _ (Forall_in _ _ _ Hp I) J). apply (Forall_in _ _ _ (Forall_in _ _ _ Np I) J).
    + destruct rs as [l|]; cbn; [|reflexivity]. f_equal. apply map_same, Forall_forall. intros [k vs] I. cbn. f_equal. apply N. intros x J.
      apply (Forall_in _ _ _ (Forall_in _ _ _ Hr I) J). apply (Forall_in _ _ _ (Forall_in _ _ _ (Nr _ eq_refl) I) J).
Qed.
Lemma no_types_put f : (forall a, no_types a -> no_types (put f a)) /\ (forall n, no_types_n n -> no_types_n (put_node f n)).
Proof.
  assert (X : forall {A B} (P : B -> Prop) (g : A -> B) l, Forall (fun x => P (g x)) l -> Forall P (map g l)).
  { intros A B P g l. induction 1; cbn; constructor; auto. }
  apply (obj_node_ind (fun a => no_types a -> no_types (put f a)) (fun n => no_types_n n -> no_types_n (put_node f n))).
  - intros; constructor.
  - intros n IH H. inversion H; subst. cbn. constructor. auto.
  - intros l IH H. inversion H as [| |? G]; subst. cbn. constructor. apply X, Forall_forall. intros x I. apply (Forall_in _ _ _ IH I), (Forall_in _ _ _ G I).
  - intros i ts g inc ps rs Hg Hi Hp Hr H. inversion H as [? ? ? ? ? Ng Ni Np Nr]; subst. cbn. constructor.
    + destruct g as [l|]; [|discriminate]. intros ? [= <-]. apply X, Forall_forall. intros x I. apply (Forall_in _ _ _ Hg I), (Forall_in _ _ _ (Ng _ eq_refl) I).
    + destruct inc as [l|]; [|discriminate]. intros ? [= <-]. apply X, Forall_forall. intros x I. apply (Forall_in _ _ _ Hi I), (Forall_in _ _ _ (Ni _ eq_refl) I).
    + apply X, Forall_forall. intros p I. cbn. apply X, Forall_forall. intros x J. apply (Forall_in _ _ _ (Forall_in _ _ _ Hp I) J), (Forall_in _ _ _ (Forall_in _ _ _ Np I) J).
    + destruct rs as [l|]; [|discriminate]. intros ? [= <-]. apply X, Forall_forall. intros p I. cbn. apply X, Forall_forall. intros x J.
      apply (Forall_in _ _ _ (Forall_in _ _ _ Hr I) J), (Forall_in _ _ _ (Forall_in _ _ _ (Nr _ eq_refl) I) J).
Qed.

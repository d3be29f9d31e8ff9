(** Equality and hashing of expanded objects against their meaning: equality up to reordering. *)
From Verif Require Import Prelude Json Enums LangTag LangString Str Keyword Container ContextSyntax Ctx Object.

(** ** Specification *)

(** Two collections are the same up to reordering of related elements (with multiplicities). *)
Inductive reordered {A} (R : A -> A -> Prop) (l m : list A) : Prop :=
| Reordered m' : Permutation m m' -> Forall2 R l m' -> reordered R l m.
Inductive both {A} (R : A -> A -> Prop) : option A -> option A -> Prop :=
| BothNone : both R None None
| BothSome x y : R x y -> both R (Some x) (Some y).

Definition same_lang (a b : string) : Prop := Forall2 same_letter (list_ascii_of_string a) (list_ascii_of_string b).
Inductive same_value : value -> value -> Prop :=
| SvLit l t : same_value (VLit l t) (VLit l t)
| SvLang d l l' r : both same_lang l l' -> same_value (VLang (MkLS d l r)) (VLang (MkLS d l' r))
| SvJson j : same_value (VJson j) (VJson j).

(** Same object: the same content up to the order of sets, multisets and properties, and the
    letter case of language tags.  The order of list items matters. *)
Inductive same : obj -> obj -> Prop :=
| SmVal v w : same_value v w -> same (OVal v) (OVal w)
| SmNode n m : same_node n m -> same (ONode n) (ONode m)
| SmList l m : Forall2 (fun x y => fst x = fst y /\ same (snd x) (snd y)) l m -> same (OList l) (OList m)
with same_node : node -> node -> Prop :=
| SmMk i ts ts' g g' inc inc' ps ps' rs rs' :
    both (fun a b => reordered eq a b) ts ts' ->
    both (fun a b => reordered (fun x y => fst x = fst y /\ same (snd x) (snd y)) a b) g g' ->
    both (fun a b => reordered (fun x y => fst x = fst y /\ same_node (snd x) (snd y)) a b) inc inc' ->
    reordered (fun p q => fst p = fst q /\ reordered (fun x y => fst x = fst y /\ same (snd x) (snd y)) (snd p) (snd q)) ps ps' ->
    both (fun a b => reordered (fun p q => fst p = fst q /\ reordered (fun x y => fst x = fst y /\ same_node (snd x) (snd y)) (snd p) (snd q)) a b) rs rs' ->
    same_node (MkNode i ts g inc ps rs) (MkNode i ts' g' inc' ps' rs').

(** What an [IndexMap] and an [IndexSet] guarantee: no two equal keys, no two equal elements. *)
Definition distinct {A} (R : A -> A -> Prop) (l : list A) : Prop := ForallOrdPairs (fun x y => ~ R x y) l.
Definition same_i (x y : iobj) : Prop := fst x = fst y /\ same (snd x) (snd y).
Definition same_in (x y : inode) : Prop := fst x = fst y /\ same_node (snd x) (snd y).
Inductive wf : obj -> Prop :=
| WfVal v : wf (OVal v)
| WfNode n : wf_node n -> wf (ONode n)
| WfList l : Forall (fun x => wf (snd x)) l -> wf (OList l)
with wf_node : node -> Prop :=
| WfMk i ts g inc ps rs :
    Forall (fun x => wf (snd x)) (opt_list g) -> distinct same_i (opt_list g) ->
    Forall (fun x => wf_node (snd x)) (opt_list inc) -> distinct same_in (opt_list inc) ->
    NoDup (map fst ps) -> Forall (fun p => Forall (fun x => wf (snd x)) (snd p)) ps ->
    NoDup (map fst (opt_list rs)) -> Forall (fun p => Forall (fun x => wf_node (snd x)) (snd p)) (opt_list rs) ->
    wf_node (MkNode i ts g inc ps rs).

(** ** Reordering *)
Lemma Forall2_perm_l {A B} (R : A -> B -> Prop) l l' m : Permutation l l' -> Forall2 R l m ->
  exists m', Permutation m m' /\ Forall2 R l' m'.
Proof.
  intros P. revert m. induction P; intros m F.
  - inversion F; subst. exists []. auto.
  - inversion F as [|? y ? m0 Hy Hm]; subst. destruct (IHP _ Hm) as (m' & Q & F'). exists (y :: m'). auto.
  - inversion F as [|? a ? m0 Ha Hm]; subst. inversion Hm as [|? b ? m1 Hb Hm1]; subst.
    exists (b :: a :: m1). split; [apply perm_swap|]. auto.
  - destruct (IHP1 _ F) as (m1 & Q1 & F1). destruct (IHP2 _ F1) as (m2 & Q2 & F2).
    exists m2. split; [eapply perm_trans; eauto|exact F2].
Qed.
Lemma Forall2_flip' {A B} (R : A -> B -> Prop) l m : Forall2 R l m -> Forall2 (fun y x => R x y) m l.
Proof. induction 1; auto. Qed.
Lemma reordered_refl {A} (R : A -> A -> Prop) l : Forall (fun x => R x x) l -> reordered R l l.
Proof. intros H. exists l; [apply Permutation_refl|]. induction H; auto. Qed.
Lemma reordered_sym {A} (R S : A -> A -> Prop) l m : (forall x y, In x l -> R x y -> S y x) -> reordered R l m -> reordered S m l.
Proof.
  intros H [m' P F].
  assert (F' : Forall2 S m' l).
  { clear P. induction F; constructor; auto. { apply H; [left; reflexivity|assumption]. } apply IHF. intros; apply H; [right|]; assumption. }
  destruct (Forall2_perm_l S m' m l (Permutation_sym P) F') as (l' & P' & F''). exists l'; assumption.
Qed.
Lemma reordered_trans {A} (R S T : A -> A -> Prop) l m k : (forall x y z, In x l -> R x y -> S y z -> T x z) ->
  reordered R l m -> reordered S m k -> reordered T l k.
Proof.
  intros H [m' P F] [k' P' F'].
  destruct (Forall2_perm_l S m m' k' P F') as (k'' & P'' & F'').
  exists k''; [eapply perm_trans; eauto|].
  clear P P' P'' F'. revert k'' F''. induction F; intros k'' F''; inversion F''; subst; constructor.
  - eapply H; [left; reflexivity|eassumption|assumption].
  - apply IHF; [|assumption]. intros. eapply H; [right; eassumption| |]; eassumption.
Qed.
Lemma reordered_length {A} (R : A -> A -> Prop) l m : reordered R l m -> length l = length m.
Proof. intros [m' P F]. rewrite (Permutation_length P). eapply Forall2_length, F. Qed.
Lemma reordered_in {A} (R : A -> A -> Prop) l m x : reordered R l m -> In x l -> exists y, In y m /\ R x y.
Proof.
  intros [m' P F] I. assert (exists y, In y m' /\ R x y) as (y & I' & H).
  { clear P. induction F; [destruct I|]. destruct I as [->|I]; [exists y; split; [left; reflexivity|assumption]|].
    destruct (IHF I) as (z & Iz & Hz). exists z. split; [right; assumption|assumption]. }
  exists y. split; [eapply Permutation_in; [apply Permutation_sym, P|exact I']|exact H].
Qed.
Lemma reordered_impl {A} (R S : A -> A -> Prop) l m : (forall x y, In x l -> In y m -> R x y -> S x y) -> reordered R l m -> reordered S l m.
Proof.
  intros H [m' P F]. exists m'; [exact P|].
  assert (H' : forall x y, In x l -> In y m' -> R x y -> S x y).
  { intros x y I J. apply H; [exact I|]. eapply Permutation_in; [apply Permutation_sym, P|exact J]. }
  clear P H. induction F; constructor.
  - apply H'; [left; reflexivity|left; reflexivity|assumption].
  - apply IHF. intros a b I J. apply H'; right; assumption.
Qed.

(** The greedy matching decides reordering when the relation is an equivalence. *)
Lemma take_first_some {B} (e : B -> bool) l r : take_first e l = Some r ->
  exists l1 y l2, l = l1 ++ y :: l2 /\ e y = true /\ r = l1 ++ l2.
Proof.
  revert r. induction l as [|y l IH]; cbn; intros r E; [discriminate|]. destruct (e y) eqn:Y.
  - injection E as <-. exists [], y, l. auto.
  - fold (take_first e l) in E. destruct (take_first e l) as [r'|] eqn:T; [|discriminate]. injection E as <-.
    destruct (IH _ eq_refl) as (l1 & z & l2 & -> & Hz & ->). exists (y :: l1), z, l2. auto.
Qed.
Lemma take_first_none {B} (e : B -> bool) l : take_first e l = None -> forall y, In y l -> e y = false.
Proof.
  induction l as [|y l IH]; cbn; intros E z I; [destruct I|]. destruct (e y) eqn:Y; [discriminate|].
  fold (take_first e l) in E. destruct (take_first e l); [discriminate|]. destruct I as [<-|I]; auto.
Qed.
Lemma match_all_spec {A} (e : A -> A -> bool) (R : A -> A -> Prop) a : forall b,
  (forall x y z, R x y -> R x z -> forall w, R w y -> R w z) ->
  (forall x y, In x a -> In y b -> (e x y = true <-> R x y)) ->
  length a = length b -> (match_all e a b = true <-> reordered R a b).
Proof.
  induction a as [|x a IH]; intros b E H L.
  - destruct b; [|discriminate]. split; [|reflexivity]. intros _. exists []; constructor.
  - cbn. fold (match_all e). destruct (take_first (e x) b) as [b'|] eqn:T.
    + destruct (take_first_some _ _ _ T) as (b1 & y & b2 & -> & Hy & ->).
      assert (Ry : R x y). { apply H; [left; reflexivity|apply in_elt|exact Hy]. }
      rewrite (IH (b1 ++ b2) E).
      * split.
        -- intros [m P F]. exists (y :: m); [|constructor; assumption].
           eapply perm_trans; [apply Permutation_sym, Permutation_middle|]. constructor. exact P.
        -- intros [m P F]. inversion F as [|? z ? m0 Rz Fm]; subst.
           assert (P' : Permutation (y :: b1 ++ b2) (z :: m0)). { eapply perm_trans; [apply Permutation_middle|exact P]. }
           clear P F.
           (* y is taken instead of z *)
           destruct (Permutation_in z (Permutation_sym P')) as [->|I]; [left; reflexivity| |].
           { apply Permutation_cons_inv in P'. exists m0; assumption. }
           apply in_split in I. destruct I as (c1 & c2 & EC). rewrite EC in *.
           assert (P2 : Permutation (y :: c1 ++ c2) m0).
           { apply (Permutation_cons_inv (a := z)). eapply perm_trans; [|exact P'].
             eapply perm_trans; [apply perm_swap|]. constructor. apply Permutation_middle. }
           assert (I2 : In y m0) by (eapply Permutation_in; [exact P2|left; reflexivity]).
           apply in_split in I2. destruct I2 as (d1 & d2 & ->).
           assert (P3 : Permutation (c1 ++ c2) (d1 ++ d2)).
           { apply (Permutation_cons_inv (a := y)). eapply perm_trans; [exact P2|]. apply Permutation_sym, Permutation_middle. }
           exists (d1 ++ z :: d2).
           { eapply perm_trans; [apply Permutation_sym, Permutation_middle|].
             eapply perm_trans; [|apply Permutation_middle]. constructor. exact P3. }
           apply Forall2_app_inv_r in Fm. destruct Fm as (a1 & a2 & F1 & F2 & ->).
           inversion F2 as [|w ? a2' ? Rw F3]; subst. apply Forall2_app; [exact F1|]. constructor; [|exact F3].
           eapply E; [exact Ry|exact Rz|exact Rw].
      * intros w z Iw Iz. apply H; [right; exact Iw|]. apply in_app_or in Iz. apply in_or_app. destruct Iz; [left|right; right]; assumption.
      * rewrite app_length in *. cbn in L. lia.
    + split; [discriminate|]. intros O. destruct (reordered_in _ _ _ x O) as (y & I & Rx); [left; reflexivity|].
      assert (e x y = true) by (apply H; [left; reflexivity|exact I|exact Rx]).
      pose proof (take_first_none _ _ T y I). congruence.
Qed.
Lemma compare_unordered_spec {A} (e : A -> A -> bool) (R : A -> A -> Prop) a b :
  (forall x y z, R x y -> R x z -> forall w, R w y -> R w z) ->
  (forall x y, In x a -> In y b -> (e x y = true <-> R x y)) ->
  (compare_unordered e a b = true <-> reordered R a b).
Proof.
  intros E H. unfold compare_unordered. rewrite andb_true_iff, Nat.eqb_eq. split.
  - intros [L M]. apply (match_all_spec e R); assumption.
  - intros O. pose proof (reordered_length _ _ _ O) as L. split; [exact L|]. apply (match_all_spec e R); assumption.
Qed.

(** Sets: same size, included, no two related elements on the left. *)
Lemma set_match {A} (R : A -> A -> Prop) a : forall b,
  (forall x y, R x y -> R y x) -> (forall x y z, R x y -> R y z -> R x z) -> distinct R a -> length a = length b ->
  (forall x, In x a -> exists y, In y b /\ R x y) -> reordered R a b.
Proof.
  induction a as [|x a IH]; intros b Sy Tr D L H.
  - destruct b; [|discriminate]. exists []; constructor.
  - destruct (H x (or_introl eq_refl)) as (y & I & Rxy). apply in_split in I. destruct I as (b1 & b2 & ->).
    inversion D as [|? ? DX DA]; subst. destruct (IH (b1 ++ b2) Sy Tr DA) as [m P F].
    + rewrite app_length in *. cbn in L. lia.
    + intros z Iz. destruct (H z (or_intror Iz)) as (w & Iw & Rzw). exists w. split; [|exact Rzw].
      apply in_app_or in Iw. apply in_or_app. destruct Iw as [Iw|[E|Iw]]; auto. subst w. exfalso.
      rewrite Forall_forall in DX. apply (DX z Iz). eapply Tr; [exact Rxy|]. apply Sy, Rzw.
    + exists (y :: m); [|constructor; assumption]. eapply perm_trans; [apply Permutation_sym, Permutation_middle|]. constructor. exact P.
Qed.
Lemma set_eqb_spec {A} (h : A -> N) (e : A -> A -> bool) (R : A -> A -> Prop) a b :
  (forall x y, R x y -> R y x) -> (forall x y z, R x y -> R y z -> R x z) -> distinct R a ->
  (forall x y, R x y -> h x = h y) ->
  (forall x y, In x a -> In y b -> (e x y = true <-> R x y)) ->
  (set_eqb h e a b = true <-> reordered R a b).
Proof.
  intros Sy Tr D Hh H. unfold set_eqb. rewrite andb_true_iff, Nat.eqb_eq, forallb_forall. split.
  - intros [L F]. apply set_match; auto. intros x I. specialize (F x I). apply existsb_exists in F.
    destruct F as (y & J & E). apply andb_true_iff in E. exists y. split; [exact J|]. apply H; tauto.
  - intros O. split; [eapply reordered_length, O|]. intros x I. apply existsb_exists.
    destruct (reordered_in _ _ _ x O I) as (y & J & Rxy). exists y. split; [exact J|]. apply andb_true_iff. split.
    + apply N.eqb_eq, Hh, Rxy.
    + apply H; assumption.
Qed.

(** Maps. *)
Lemma get_id_in {A} k (l : list (id * A)) v : get_id k l = Some v -> In (k, v) l.
Proof.
  induction l as [|[k' w] l IH]; cbn; [discriminate|]. destruct (id_eqb_spec k k') as [->|N].
  - intros [= ->]. left; reflexivity.
  - intros E. right. apply IH, E.
Qed.
Lemma get_id_nodup {A} k (l : list (id * A)) v : NoDup (map fst l) -> In (k, v) l -> get_id k l = Some v.
Proof.
  induction l as [|[k' w] l IH]; cbn; intros D I; [destruct I|]. inversion D as [|? ? NI D']; subst.
  destruct (id_eqb_spec k k') as [->|N].
  - destruct I as [E|I]; [congruence|]. exfalso. apply NI. apply (in_map fst) in I. exact I.
  - destruct I as [E|I]; [congruence|]. apply IH; assumption.
Qed.
Lemma nodup_distinct {A} (R : A -> A -> Prop) (ps : list (id * A)) : NoDup (map fst ps) ->
  distinct (fun p q => fst p = fst q /\ R (snd p) (snd q)) ps.
Proof.
  induction ps as [|p ps IH]; cbn; intros D; [constructor|]. inversion D as [|? ? NI D']; subst. constructor; [|apply IH, D'].
  apply Forall_forall. intros q I [E _]. apply NI. rewrite E. apply in_map, I.
Qed.
Lemma map_eqb_spec {A} (e : A -> A -> bool) (R : A -> A -> Prop) a b :
  (forall x y, R x y -> R y x) -> (forall x y z, R x y -> R y z -> R x z) -> NoDup (map fst a) -> NoDup (map fst b) ->
  (forall p q, In p a -> In q b -> (e (snd p) (snd q) = true <-> R (snd p) (snd q))) ->
  (map_eqb e a b = true <-> reordered (fun p q => fst p = fst q /\ R (snd p) (snd q)) a b).
Proof.
  intros Sy Tr Da Db H. unfold map_eqb. rewrite andb_true_iff, Nat.eqb_eq, forallb_forall. split.
  - intros [L F]. apply set_match; auto.
    + intros p q [E X]. split; [congruence|auto].
    + intros p q r [E X] [E' X']. split; [congruence|eauto].
    + apply nodup_distinct, Da.
    + intros p I. specialize (F p I). destruct (get_id (fst p) b) as [w|] eqn:G; [|discriminate].
      apply get_id_in in G. exists (fst p, w). split; [exact G|]. split; [reflexivity|]. apply (H p (fst p, w) I G). exact F.
  - intros O. split; [eapply reordered_length, O|]. intros p I.
    destruct (reordered_in _ _ _ p O I) as ([k w] & J & E & X). cbn in E, X. subst k.
    rewrite (get_id_nodup _ _ _ Db J). apply (H p (fst p, w) I J). exact X.
Qed.

(** ** [same] is an equivalence *)
Lemma both_refl {A} (R : A -> A -> Prop) (o : option A) : (forall x, o = Some x -> R x x) -> both R o o.
Proof. destruct o; constructor; auto. Qed.
Lemma same_letter_refl x : same_letter x x. Proof. apply smallcase_same. reflexivity. Qed.
Lemma same_letter_sym x y : same_letter x y -> same_letter y x. Proof. rewrite <- !smallcase_same. congruence. Qed.
Lemma same_letter_trans x y z : same_letter x y -> same_letter y z -> same_letter x z. Proof. rewrite <- !smallcase_same. congruence. Qed.
Lemma lang_eqb_spec a b : lang_eqb a b = true <-> same_lang a b.
Proof. apply ci_eq_spec. Qed.
Lemma same_lang_refl a : same_lang a a. Proof. apply lang_eqb_spec, ci_eq_refl. Qed.
Lemma same_lang_sym a b : same_lang a b -> same_lang b a. Proof. rewrite <- !lang_eqb_spec. apply ci_eq_sym. Qed.
Lemma same_lang_trans a b c : same_lang a b -> same_lang b c -> same_lang a c. Proof. rewrite <- !lang_eqb_spec. apply ci_eq_trans. Qed.
Lemma same_value_refl v : same_value v v.
Proof. destruct v as [l t|[d l r]|j]; constructor. destruct l; constructor. apply same_lang_refl. Qed.
Lemma same_value_sym v w : same_value v w -> same_value w v.
Proof. destruct 1 as [| ? ? ? ? B|]; constructor. inversion B; constructor. apply same_lang_sym. assumption. Qed.
Lemma same_value_trans v w x : same_value v w -> same_value w x -> same_value v x.
Proof.
  destruct 1 as [| ? ? ? ? B|]; intros X; inversion X as [|? ? ? ? B'|]; subst; constructor.
  inversion B; subst; inversion B'; subst; constructor. eapply same_lang_trans; eassumption.
Qed.
Lemma value_eqb_spec v w : value_eqb v w = true <-> same_value v w.
Proof.
  destruct v as [l t|[d l r]|j], w as [l' t'|[d' l' r']|j']; cbn; try (split; [discriminate|inversion 1]).
  - rewrite andb_true_iff. split.
    + intros [E F]. assert (l = l') as ->. { destruct l, l'; cbn in E; try discriminate; try reflexivity; try (apply streq_true in E; congruence). apply Bool.eqb_prop in E. congruence. }
      destruct t, t'; cbn in F; try discriminate; [apply streq_true in F; subst|]; constructor.
    + inversion 1; subst. split; [destruct l'; cbn; auto using streq_refl, Bool.eqb_reflx|]. destruct t'; cbn; auto using streq_refl.
  - unfold ls_eqb; cbn. rewrite !andb_true_iff. split.
    + intros [[E F] G]. apply streq_true in E. subst d'.
      assert (r = r') as -> by (destruct r as [[]|], r' as [[]|]; cbn in G; congruence).
      constructor. destruct l, l'; cbn in F; try discriminate; constructor. apply lang_eqb_spec, F.
    + inversion 1 as [|? ? ? ? B|]; subst. split; [split; [apply streq_refl|]|destruct r' as [[]|]; reflexivity].
      inversion B; cbn; [reflexivity|]. apply lang_eqb_spec; assumption.
  - rewrite json_eqb_eq. split; [intros ->; constructor|inversion 1; reflexivity].
Qed.

Lemma same_refl_both : (forall o, same o o) /\ (forall n, same_node n n).
Proof.
  apply obj_node_ind.
  - intros v. constructor. apply same_value_refl.
  - intros n H. constructor. exact H.
  - intros l H. constructor. induction H; constructor; auto.
  - intros i ts g inc ps rs Hg Hi Hp Hr. constructor.
    + apply both_refl. intros x _. apply reordered_refl. apply Forall_forall. reflexivity.
    + apply both_refl. intros x ->. apply reordered_refl. eapply Forall_impl; [|exact Hg]. intros a Ha. auto.
    + apply both_refl. intros x ->. apply reordered_refl. eapply Forall_impl; [|exact Hi]. intros a Ha. auto.
    + apply reordered_refl. eapply Forall_impl; [|exact Hp]. intros a Ha. split; [reflexivity|].
      apply reordered_refl. eapply Forall_impl; [|exact Ha]. intros b Hb; auto.
    + apply both_refl. intros x ->. apply reordered_refl. eapply Forall_impl; [|exact Hr]. intros a Ha. split; [reflexivity|].
      apply reordered_refl. eapply Forall_impl; [|exact Ha]. intros b Hb; auto.
Qed.

Lemma Forall_in {A} (P : A -> Prop) l x : Forall P l -> In x l -> P x.
Proof. rewrite Forall_forall. auto. Qed.

Lemma same_sym_both : (forall a b, same a b -> same b a) /\ (forall a b, same_node a b -> same_node b a).
Proof.
  apply (obj_node_ind (fun a => forall b, same a b -> same b a) (fun a => forall b, same_node a b -> same_node b a)).
  - intros v b H. inversion H; subst. constructor. apply same_value_sym. assumption.
  - intros n IH b H. inversion H; subst. constructor. auto.
  - intros l IH b H. inversion H as [| |? m F]; subst. constructor. clear H.
    induction F as [|x y l m [E X] F IHF]; constructor.
    + inversion IH; subst. split; auto.
    + inversion IH; subst. auto.
  - intros i ts g inc ps rs Hg Hi Hp Hr b H. inversion H as [? ? ts' ? g' ? inc' ? ps' ? rs' Ht Bg Bi Op Br]; subst. constructor.
    + destruct Ht; constructor. eapply reordered_sym; [|eassumption]. cbn. auto.
    + destruct Bg; constructor. eapply reordered_sym; [|eassumption]. cbn. intros a b' I [E X].
      split; [auto|]. apply (Forall_in _ _ _ Hg I). assumption.
    + destruct Bi; constructor. eapply reordered_sym; [|eassumption]. cbn. intros a b' I [E X].
      split; [auto|]. apply (Forall_in _ _ _ Hi I). assumption.
    + eapply reordered_sym; [|eassumption]. cbn. intros p q I [E X]. split; [auto|].
      eapply reordered_sym; [|eassumption]. cbn. intros a b' J [E' X']. split; [auto|].
      apply (Forall_in _ _ _ (Forall_in _ _ _ Hp I) J). assumption.
    + destruct Br; constructor. eapply reordered_sym; [|eassumption]. cbn. intros p q I [E X]. split; [auto|].
      eapply reordered_sym; [|eassumption]. cbn. intros a b' J [E' X']. split; [auto|].
      apply (Forall_in _ _ _ (Forall_in _ _ _ Hr I) J). assumption.
Qed.

Lemma both_trans {A} (R S T : A -> A -> Prop) a b c : (forall x y z, a = Some x -> R x y -> S y z -> T x z) ->
  both R a b -> both S b c -> both T a c.
Proof.
  intros H B B'. destruct B; inversion B'; subst; constructor. eapply H; [reflexivity|eassumption|assumption].
Qed.
Lemma same_trans_both : (forall a b c, same a b -> same b c -> same a c) /\ (forall a b c, same_node a b -> same_node b c -> same_node a c).
Proof.
  apply (obj_node_ind (fun a => forall b c, same a b -> same b c -> same a c) (fun a => forall b c, same_node a b -> same_node b c -> same_node a c)).
  - intros v b c H K. inversion H; subst. inversion K; subst. constructor. eapply same_value_trans; eassumption.
  - intros n IH b c H K. inversion H; subst. inversion K; subst. constructor. eauto.
  - intros l IH b c H K. inversion H as [| |? m F]; subst. inversion K as [| |? k G]; subst. constructor. clear H K.
    revert k G. induction F as [|x y l m [E X] F IHF]; intros k G; inversion G as [|? z ? k' [E' X'] G']; subst; constructor.
    + inversion IH; subst. split; [congruence|eauto].
    + inversion IH; subst. auto.
  - intros i ts g inc ps rs Hg Hi Hp Hr b c H K.
    inversion H as [? ? ts' ? g' ? inc' ? ps' ? rs' Ht Bg Bi Op Br]; subst.
    inversion K as [? ? ts2 ? g2 ? inc2 ? ps2 ? rs2 Ht' Bg' Bi' Op' Br']; subst. constructor.
    + eapply both_trans; [|exact Ht|exact Ht']. intros x y z _. apply reordered_trans. cbn. intros; congruence.
    + eapply both_trans; [|exact Bg|exact Bg']. intros x y z ->. apply reordered_trans. cbn. intros a b' c I [E X] [E' X'].
      split; [congruence|]. eapply (Forall_in _ _ _ Hg I); eassumption.
    + eapply both_trans; [|exact Bi|exact Bi']. intros x y z ->. apply reordered_trans. cbn. intros a b' c I [E X] [E' X'].
      split; [congruence|]. eapply (Forall_in _ _ _ Hi I); eassumption.
    + eapply reordered_trans; [|exact Op|exact Op']. cbn. intros p q r I [E X] [E' X']. split; [congruence|].
      eapply reordered_trans; [|exact X|exact X']. cbn. intros a b' c J [E2 X2] [E3 X3]. split; [congruence|].
      eapply (Forall_in _ _ _ (Forall_in _ _ _ Hp I) J); eassumption.
    + eapply both_trans; [|exact Br|exact Br']. intros x y z ->. apply reordered_trans. cbn. intros p q r I [E X] [E' X']. split; [congruence|].
      eapply reordered_trans; [|exact X|exact X']. cbn. intros a b' c J [E2 X2] [E3 X3]. split; [congruence|].
      eapply (Forall_in _ _ _ (Forall_in _ _ _ Hr I) J); eassumption.
Qed.
Lemma same_refl o : same o o. Proof. apply same_refl_both. Qed.
Lemma same_sym a b : same a b -> same b a. Proof. apply same_sym_both. Qed.
Lemma same_trans a b c : same a b -> same b c -> same a c. Proof. apply same_trans_both. Qed.
Lemma same_i_sym x y : same_i x y -> same_i y x.
Proof. intros [E H]. split; [auto|]. apply same_sym, H. Qed.
Lemma same_i_trans x y z : same_i x y -> same_i y z -> same_i x z.
Proof. intros [E H] [E' H']. split; [congruence|]. eapply same_trans; eassumption. Qed.
Lemma same_in_sym x y : same_in x y -> same_in y x.
Proof. intros [E H]. split; [auto|]. apply same_sym_both, H. Qed.
Lemma same_in_trans x y z : same_in x y -> same_in y z -> same_in x z.
Proof. intros [E H] [E' H']. split; [congruence|]. eapply same_trans_both; eassumption. Qed.

(** ** Hashing *)
Section HashProofs.
  Variables (fin rnd : list word -> N).
  Lemma sum_swap h a b : N.modulo (N.modulo (h + a) two64 + b) two64 = N.modulo (N.modulo (h + b) two64 + a) two64.
  Proof.
    rewrite !N.add_mod_idemp_l by discriminate. f_equal. lia.
  Qed.
  Lemma fold_sum_perm {A} (f : A -> list word) l m : Permutation l m -> forall h,
    fold_left (fun h x => N.modulo (h + fin (f x)) two64) l h = fold_left (fun h x => N.modulo (h + fin (f x)) two64) m h.
  Proof.
    induction 1; intros h; cbn; auto.
    - rewrite sum_swap. reflexivity.
    - rewrite IHPermutation1. auto.
  Qed.
  Lemma fold_sum_rel {A} (f : A -> list word) l m : Forall2 (fun x y => f x = f y) l m -> forall h,
    fold_left (fun h x => N.modulo (h + fin (f x)) two64) l h = fold_left (fun h x => N.modulo (h + fin (f x)) two64) m h.
  Proof. induction 1 as [|x y l m E F IH]; intros h; cbn; [reflexivity|]. rewrite E. apply IH. Qed.
  Lemma sum_words_same {A} (f : A -> list word) (R : A -> A -> Prop) l m : (forall x y, In x l -> R x y -> f x = f y) ->
    reordered R l m -> sum_words fin f l = sum_words fin f m.
  Proof.
    intros H [m' P F]. unfold sum_words. rewrite (fold_sum_perm f m m' P), (fold_sum_rel f l m'); [reflexivity|].
    clear P. induction F; constructor. { apply H; [left; reflexivity|assumption]. } apply IHF. intros; apply H; [right|]; assumption.
  Qed.
  Lemma same_value_words v w : same_value v w -> value_words v = value_words w.
  Proof.
    destruct 1 as [|d l l' r B|]; try reflexivity. cbn. destruct B as [|x y H]; [reflexivity|]. cbn. unfold lang_words.
    apply lang_eqb_spec, ci_hash_eq in H. rewrite H. reflexivity.
  Qed.
  Lemma same_words_both : (forall a b, same a b -> obj_words fin a = obj_words fin b) /\
    (forall a b, same_node a b -> node_words fin a = node_words fin b).
  Proof.
    apply (obj_node_ind (fun a => forall b, same a b -> obj_words fin a = obj_words fin b) (fun a => forall b, same_node a b -> node_words fin a = node_words fin b)).
    - intros v b H. inversion H; subst. cbn. f_equal. apply same_value_words. assumption.
    - intros n IH b H. inversion H; subst. cbn. f_equal. auto.
    - intros l IH b H. inversion H as [| |? m F]; subst. cbn. f_equal. rewrite (Forall2_length _ _ _ F). f_equal. clear H.
      induction F as [|x y l m [E X] F IHF]; cbn; [reflexivity|]. inversion IH; subst. f_equal; [|auto]. rewrite E. f_equal. auto.
    - intros i ts g inc ps rs Hg Hi Hp Hr b H. inversion H as [? ? ts' ? g' ? inc' ? ps' ? rs' Ht Bg Bi Op Br]; subst. cbn [node_words].
      f_equal. f_equal; [|f_equal; [|f_equal; [|f_equal]]].
      + destruct Ht; cbn; [reflexivity|]. eapply sum_words_same; [|eassumption]. cbn. congruence.
      + destruct Bg; cbn; [reflexivity|]. eapply sum_words_same; [|eassumption]. cbn. intros a b' I [E X]. rewrite E. f_equal. apply (Forall_in _ _ _ Hg I). assumption.
      + destruct Bi; cbn; [reflexivity|]. eapply sum_words_same; [|eassumption]. cbn. intros a b' I [E X]. rewrite E. f_equal. apply (Forall_in _ _ _ Hi I). assumption.
      + eapply sum_words_same; [|eassumption]. cbn. intros p q I [E X]. rewrite E. f_equal.
        eapply sum_words_same; [|eassumption]. cbn. intros a b' J [E' X']. rewrite E'. f_equal. apply (Forall_in _ _ _ (Forall_in _ _ _ Hp I) J). assumption.
      + destruct Br; cbn; [reflexivity|]. f_equal. eapply sum_words_same; [|eassumption]. cbn. intros p q I [E X]. rewrite E. f_equal.
        eapply sum_words_same; [|eassumption]. cbn. intros a b' J [E' X']. rewrite E'. f_equal. apply (Forall_in _ _ _ (Forall_in _ _ _ Hr I) J). assumption.
  Qed.

  Lemma opt_streq a b : opt_eqb streq a b = true <-> a = b.
  Proof. destruct a, b; cbn; rewrite ?streq_true; split; congruence. Qed.
  Lemma opt_ideq a b : opt_eqb id_eqb a b = true <-> a = b.
  Proof. destruct (opt_eqb_spec id_eqb id_eqb_spec a b); split; congruence. Qed.

  (** ** Equality *)
  Lemma equiv_trans {A} (R : A -> A -> Prop) : (forall x y, R x y -> R y x) -> (forall x y z, R x y -> R y z -> R x z) ->
    forall x y z, R x y -> R x z -> forall w, R w y -> R w z.
  Proof. intros Sy Tr x y z Hy Hz w Hw. eapply Tr; [exact Hw|]. eapply Tr; [apply Sy, Hy|exact Hz]. Qed.

  Lemma eqb_both : (forall a b, wf a -> wf b -> (obj_eqb fin rnd a b = true <-> same a b)) /\
    (forall a b, wf_node a -> wf_node b -> (node_eqb fin rnd a b = true <-> same_node a b)).
  Proof.
    apply (obj_node_ind (fun a => forall b, wf a -> wf b -> (obj_eqb fin rnd a b = true <-> same a b))
      (fun a => forall b, wf_node a -> wf_node b -> (node_eqb fin rnd a b = true <-> same_node a b))).
    - intros v b _ _. destruct b; cbn; try (split; [discriminate|inversion 1]). rewrite value_eqb_spec. split; [constructor; assumption|inversion 1; assumption].
    - intros n IH b Wa Wb. destruct b; cbn; try (split; [discriminate|inversion 1]). inversion Wa; inversion Wb; subst.
      rewrite IH by assumption. split; [constructor; assumption|inversion 1; assumption].
    - intros l IH b Wa Wb. destruct b as [| |m]; try (cbn; split; [discriminate|inversion 1]).
      inversion Wa as [| |? Fa]; inversion Wb as [| |? Fb]; subst. clear Wa Wb.
      assert (X : obj_eqb fin rnd (OList l) (OList m) = true <-> Forall2 same_i l m).
      { cbn [obj_eqb]. revert m Fb. induction l as [|x l IHl]; intros [|y m] Fb; cbn; try (split; [discriminate|inversion 1]).
        - split; constructor.
        - inversion IH; inversion Fa; inversion Fb; subst. rewrite !andb_true_iff, opt_streq. rewrite IHl by assumption.
          split.
          + intros [[E X] F]. constructor; [split; [exact E|]|exact F]. match goal with H : forall b, _ -> _ -> (_ <-> _) |- _ => apply H end; assumption.
          + intros F. inversion F as [|? ? ? ? [E X] F']; subst. split; [split; [exact E|]|exact F']. match goal with H : forall b, _ -> _ -> (_ <-> _) |- _ => apply H end; assumption. }
      rewrite X. split; [intros F; constructor; exact F|inversion 1; assumption].
    - intros i ts g inc ps rs Hg Hi Hp Hr b Wa Wb. destruct b as [i' ts' g' inc' ps' rs'].
      inversion Wa as [? ? ? ? ? ? Wg Dg Wi Di Np Wp Nr Wr]; inversion Wb as [? ? ? ? ? ? Wg' Dg' Wi' Di' Np' Wp' Nr' Wr']; subst. clear Wa Wb.
      assert (Ts : compare_unordered_opt id_eqb ts ts' = true <-> both (fun a b => reordered eq a b) ts ts').
      { destruct ts, ts'; cbn; try (split; [discriminate|inversion 1]); [|split; [constructor|reflexivity]].
        rewrite (compare_unordered_spec id_eqb eq); [|congruence|intros x y _ _; destruct (id_eqb_spec x y); split; congruence].
        split; [constructor; assumption|inversion 1; assumption]. }
      assert (Gs : match g, g' with
           | Some l, Some m => set_eqb (fun x => rnd (iobj_words fin x)) (fun x y => opt_eqb streq (fst x) (fst y) && obj_eqb fin rnd (snd x) (snd y)) l m
           | None, None => true
           | _, _ => false
           end = true <-> both (fun a b => reordered same_i a b) g g').
      { destruct g as [l|], g' as [m|]; try (split; [discriminate|inversion 1]); [|split; [constructor|reflexivity]]. cbn [opt_list] in *.
        rewrite (set_eqb_spec _ _ same_i); [split; [constructor; assumption|inversion 1; assumption]|apply same_i_sym|apply same_i_trans|exact Dg| |].
        - intros x y [E X]. f_equal. unfold iobj_words. rewrite E. f_equal. apply same_words_both, X.
        - intros x y I J. rewrite andb_true_iff, opt_streq. unfold same_i.
          rewrite (Forall_in _ _ _ Hg I (snd y) (Forall_in _ _ _ Wg I) (Forall_in _ _ _ Wg' J)). reflexivity. }
      assert (Is : match inc, inc' with
           | Some l, Some m => set_eqb (fun x => rnd (inode_words fin x)) (fun x y => opt_eqb streq (fst x) (fst y) && node_eqb fin rnd (snd x) (snd y)) l m
           | None, None => true
           | _, _ => false
           end = true <-> both (fun a b => reordered same_in a b) inc inc').
      { destruct inc as [l|], inc' as [m|]; try (split; [discriminate|inversion 1]); [|split; [constructor|reflexivity]]. cbn [opt_list] in *.
        rewrite (set_eqb_spec _ _ same_in); [split; [constructor; assumption|inversion 1; assumption]|apply same_in_sym|apply same_in_trans|exact Di| |].
        - intros x y [E X]. f_equal. unfold inode_words. rewrite E. f_equal. apply same_words_both, X.
        - intros x y I J. rewrite andb_true_iff, opt_streq. unfold same_in.
          rewrite (Forall_in _ _ _ Hi I (snd y) (Forall_in _ _ _ Wi I) (Forall_in _ _ _ Wi' J)). reflexivity. }
      assert (Ps : map_eqb (compare_unordered (fun x y => opt_eqb streq (fst x) (fst y) && obj_eqb fin rnd (snd x) (snd y))) ps ps' = true
        <-> reordered (fun p q => fst p = fst q /\ reordered same_i (snd p) (snd q)) ps ps').
      { apply map_eqb_spec; [| |exact Np|exact Np'|].
        - intros x y. apply reordered_sym. intros ? ? _. apply same_i_sym.
        - intros x y z. apply reordered_trans. intros ? ? ? _. apply same_i_trans.
        - intros p q I J. apply compare_unordered_spec; [apply equiv_trans; [apply same_i_sym|apply same_i_trans]|].
          intros x y K L. rewrite andb_true_iff, opt_streq. unfold same_i.
          rewrite (Forall_in _ _ _ (Forall_in _ _ _ Hp I) K (snd y) (Forall_in _ _ _ (Forall_in _ _ _ Wp I) K) (Forall_in _ _ _ (Forall_in _ _ _ Wp' J) L)). reflexivity. }
      assert (Rs : match rs, rs' with
           | Some l, Some m => map_eqb (compare_unordered (fun x y => opt_eqb streq (fst x) (fst y) && node_eqb fin rnd (snd x) (snd y))) l m
           | None, None => true
           | _, _ => false
           end = true <-> both (fun a b => reordered (fun p q => fst p = fst q /\ reordered same_in (snd p) (snd q)) a b) rs rs').
      { destruct rs as [l|], rs' as [m|]; try (split; [discriminate|inversion 1]); [|split; [constructor|reflexivity]]. cbn [opt_list] in *.
        rewrite (map_eqb_spec _ (reordered same_in)); [split; [constructor; assumption|inversion 1; assumption]| | |exact Nr|exact Nr'|].
        - intros x y. apply reordered_sym. intros ? ? _. apply same_in_sym.
        - intros x y z. apply reordered_trans. intros ? ? ? _. apply same_in_trans.
        - intros p q I J. apply compare_unordered_spec; [apply equiv_trans; [apply same_in_sym|apply same_in_trans]|].
          intros x y K L. rewrite andb_true_iff, opt_streq. unfold same_in.
          rewrite (Forall_in _ _ _ (Forall_in _ _ _ Hr I) K (snd y) (Forall_in _ _ _ (Forall_in _ _ _ Wr I) K) (Forall_in _ _ _ (Forall_in _ _ _ Wr' J) L)). reflexivity. }
      cbn [node_eqb]. rewrite !andb_true_iff, opt_ideq, Ts, Gs, Is, Ps, Rs. split.
      + intros [[[[[<- A] B] C] D] E]. constructor; assumption.
      + inversion 1; subst. repeat split; assumption.
  Qed.
End HashProofs.

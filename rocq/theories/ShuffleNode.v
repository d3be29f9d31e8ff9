(** Building nodes in two orders gives the same node: used for C95. *)
From Verif Require Import Prelude Json Str Keyword Enums LangTag LangString Container Stack ContextSyntax Ctx Process ProcessRel
  Object ObjectEq ObjectJson ObjectJsonProofs CompactIri Expand ExpandOk.

(** ** Lists *)
Lemma reordered_of {A} (R : A -> A -> Prop) l m : Forall2 R l m -> reordered R l m.
Proof. intros F. exists m; [apply Permutation_refl|exact F]. Qed.
Lemma reordered_perm {A} (R : A -> A -> Prop) l m k : reordered R l m -> Permutation m k -> reordered R l k.
Proof. intros [m' P F] Q. exists m'; [|exact F]. eapply perm_trans; [apply Permutation_sym, Q|exact P]. Qed.
Lemma reordered_perm_l {A} (R : A -> A -> Prop) l m k : reordered R l m -> Permutation l k -> reordered R k m.
Proof. intros [m' P F] Q. destruct (Forall2_perm_l _ _ _ _ Q F) as (m2 & P2 & F2). exists m2; [eapply perm_trans; eassumption|exact F2]. Qed.
Lemma reordered_app {A} (R : A -> A -> Prop) a a' b b' : reordered R a a' -> reordered R b b' -> reordered R (a ++ b) (a' ++ b').
Proof. intros [m P F] [k Q G]. exists (m ++ k); [apply Permutation_app; assumption|apply Forall2_app; assumption]. Qed.
Lemma Forall2_map2 {A B} (R : A -> A -> Prop) (S : B -> B -> Prop) (f : A -> B) l m :
  (forall x y, R x y -> S (f x) (f y)) -> Forall2 R l m -> Forall2 S (map f l) (map f m).
Proof. intros H. induction 1; constructor; auto. Qed.
Lemma reordered_map {A B} (R : A -> A -> Prop) (S : B -> B -> Prop) (f : A -> B) l m :
  (forall x y, R x y -> S (f x) (f y)) -> reordered R l m -> reordered S (map f l) (map f m).
Proof. intros H [k P F]. exists (map f k); [apply Permutation_map, P|]. exact (Forall2_map2 _ _ _ _ _ H F). Qed.
Lemma perm_filter {A} (f : A -> bool) l m : Permutation l m -> Permutation (filter f l) (filter f m).
Proof.
  induction 1; cbn.
  - constructor.
  - destruct (f x); [constructor|]; assumption.
  - destruct (f x), (f y); try apply Permutation_refl. apply perm_swap.
  - eapply perm_trans; eassumption.
Qed.
Lemma Forall2_filter {A} (R : A -> A -> Prop) (f : A -> bool) l m : (forall x y, R x y -> f x = f y) -> Forall2 R l m -> Forall2 R (filter f l) (filter f m).
Proof. intros H. induction 1 as [|x y l m E F IH]; cbn; [constructor|]. rewrite (H _ _ E). destruct (f y); [constructor|]; assumption. Qed.
Lemma Forall2_and_l {A B} (R : A -> B -> Prop) (P : A -> Prop) l m : Forall2 R l m -> (forall x y, R x y -> P x) -> Forall P l.
Proof. induction 1; intros K; constructor; eauto. Qed.
Lemma reordered_fl {A} (R : A -> A -> Prop) (P : A -> Prop) l m : reordered R l m -> (forall x y, R x y -> P x) -> Forall P l.
Proof. intros [k _ F] H. exact (Forall2_and_l _ _ _ _ F H). Qed.
Lemma Forall2_and_r {A B} (R : A -> B -> Prop) (P : B -> Prop) l m : Forall2 R l m -> (forall x y, R x y -> P y) -> Forall P m.
Proof. induction 1; intros K; constructor; eauto. Qed.
Lemma reordered_fr {A} (R : A -> A -> Prop) (P : A -> Prop) l m : reordered R l m -> (forall x y, R x y -> P y) -> Forall P m.
Proof.
  intros [k Q F] H. apply Forall_forall. intros x I. apply (Forall_in _ k); [exact (Forall2_and_r _ _ _ _ F H)|]. eapply Permutation_in; eassumption.
Qed.

(** ** Sets *)
Lemma distinct_app {A} (R : A -> A -> Prop) a b : distinct R (a ++ b) ->
  distinct R a /\ distinct R b /\ forall x y, In x a -> In y b -> ~ R x y.
Proof.
  unfold distinct. induction a as [|z a IH]; cbn; intros D; [repeat split; [constructor|exact D|intros ? ? []]|].
  inversion D as [|? ? F D']; subst. destruct (IH D') as (D1 & D2 & X). apply Forall_app in F. destruct F as [F1 F2].
  repeat split; [constructor; assumption|exact D2|]. intros x y [<-|I] J; [|exact (X _ _ I J)]. exact (Forall_in _ _ _ F2 J).
Qed.
Lemma distinct_remove {A} (R : A -> A -> Prop) a y b : distinct R (a ++ y :: b) ->
  distinct R (a ++ b) /\ (forall x, In x a -> ~ R x y) /\ forall x, In x b -> ~ R y x.
Proof.
  unfold distinct. induction a as [|z a IH]; cbn; intros D.
  - inversion D as [|? ? F D']; subst. split; [exact D'|]. split; [intros ? []|]. intros x I. exact (Forall_in _ _ _ F I).
  - inversion D as [|? ? F D']; subst. destruct (IH D') as (D1 & X & Y). apply Forall_app in F. destruct F as [F1 F2]. inversion F2; subst. split.
    { constructor; [apply Forall_app; split; assumption|exact D1]. }
    split; [|exact Y]. intros x [<-|I]; [assumption|exact (X _ I)].
Qed.
Lemma set_reordered {A} (R : A -> A -> Prop) a : forall b,
  (forall x y, R x y -> R y x) -> (forall x y z, R x y -> R y z -> R x z) -> distinct R a -> distinct R b ->
  (forall x, In x a -> exists y, In y b /\ R x y) -> (forall y, In y b -> exists x, In x a /\ R x y) -> reordered R a b.
Proof.
  induction a as [|x a IH]; intros b Sy Tr Da Db H K.
  - destruct b as [|y b]; [exists []; constructor|]. destruct (K y (or_introl eq_refl)) as (x & [] & _).
  - destruct (H x (or_introl eq_refl)) as (y & I & Rxy). apply in_split in I. destruct I as (b1 & b2 & ->).
    inversion Da as [|? ? DX DA]; subst. destruct (distinct_remove _ _ _ _ Db) as (Db' & N1 & N2). destruct (IH (b1 ++ b2) Sy Tr DA Db') as [m P F].
    + intros z Iz. destruct (H z (or_intror Iz)) as (w & Iw & Rzw). exists w. split; [|exact Rzw].
      apply in_app_or in Iw. apply in_or_app. destruct Iw as [Iw|[E|Iw]]; auto. subst w. exfalso.
      rewrite Forall_forall in DX. apply (DX z Iz). eapply Tr; [exact Rxy|]. apply Sy, Rzw.
    + intros w Iw. assert (Iw' : In w (b1 ++ y :: b2)) by (apply in_app_or in Iw; apply in_or_app; destruct Iw; [left|right; right]; assumption).
      destruct (K w Iw') as (z & [<-|Iz] & Rz); [|eauto]. exfalso. apply in_app_or in Iw.
      assert (R w y) by (eapply Tr; [apply Sy, Rz|exact Rxy]). destruct Iw as [Iw|Iw]; [exact (N1 _ Iw H0)|exact (N2 _ Iw (Sy _ _ H0))].
    + exists (y :: m); [|constructor; assumption]. eapply perm_trans; [apply Permutation_sym, Permutation_middle|]. constructor. exact P.
Qed.
Section SetFold.
  Context {A : Type} (h : A -> N) (e : A -> A -> bool) (R : A -> A -> Prop) (W : A -> Prop).
  Hypothesis He : forall x y, W x -> W y -> (e x y = true <-> R x y).
  Hypothesis Hh : forall x y, R x y -> h x = h y.
  Hypothesis Hr : forall x, R x x.
  Hypothesis Sy : forall x y, R x y -> R y x.
  Hypothesis Tr : forall x y z, R x y -> R y z -> R x z.
  Lemma fold_from l : forall s x, In x (fold_left (set_insert h e) l s) -> In x s \/ In x l.
  Proof.
    induction l as [|y l IH]; cbn; intros s x I; [auto|]. destruct (IH _ _ I) as [J|J]; [|auto]. unfold set_insert in J.
    destruct (existsb _ s); [auto|]. apply in_app_or in J. destruct J as [J|[->|[]]]; auto.
  Qed.
  Lemma fold_has l : forall s x, Forall W l -> Forall W s -> In x s \/ In x l -> exists y, In y (fold_left (set_insert h e) l s) /\ R x y.
  Proof.
    assert (G : forall l s x, In x s -> In x (fold_left (set_insert h e) l s)).
    { clear. intros l. induction l as [|y l IH]; cbn; intros s x I; [exact I|]. apply IH. unfold set_insert. destruct (existsb _ s); [exact I|]. apply in_or_app; auto. }
    induction l as [|y l IH]; cbn; intros s x Fl F I; [destruct I as [I|[]]; eauto|]. inversion Fl as [|? ? Wy Fl']; subst.
    assert (F' : Forall W (set_insert h e s y)). { unfold set_insert. destruct (existsb _ s); [exact F|]. apply Forall_app; auto. }
    destruct I as [I|[<-|I]].
    - exists x. split; [|apply Hr]. apply G. unfold set_insert. destruct (existsb _ s); [exact I|]. apply in_or_app; auto.
    - destruct (existsb (fun z => N.eqb (h z) (h y) && e z y) s) eqn:X.
      + apply existsb_exists in X. destruct X as (z & Iz & X). apply andb_true_iff in X. destruct X as [_ X].
        exists z. split; [apply G; unfold set_insert; destruct (existsb _ s); [exact Iz|apply in_or_app; auto]|].
        apply Sy, He; auto. exact (Forall_in _ _ _ F Iz).
      + exists y. split; [|apply Hr]. apply G. unfold set_insert. rewrite X. apply in_or_app. right. left. reflexivity.
    - apply IH; auto.
  Qed.
  Lemma fold_same l l' s s' : Forall W l -> Forall W l' -> Forall W s -> Forall W s' -> distinct R s -> distinct R s' ->
    reordered R l l' -> reordered R s s' -> reordered R (fold_left (set_insert h e) l s) (fold_left (set_insert h e) l' s').
  Proof.
    intros Fl Fl' Fs Fs' Ds Ds' Rl Rs.
    assert (HE : forall x y, W x -> W y -> R x y -> e x y = true) by (intros; apply He; assumption).
    apply set_reordered; auto.
    - apply (set_fold h e R W l s HE Hh); assumption.
    - apply (set_fold h e R W l' s' HE Hh); assumption.
    - intros x I. apply fold_from in I.
      assert (exists y, (In y s' \/ In y l') /\ R x y) as (y & J & Ry).
      { destruct I as [I|I]; [destruct (reordered_in _ _ _ _ Rs I) as (y & J & Ry)|destruct (reordered_in _ _ _ _ Rl I) as (y & J & Ry)]; eauto. }
      destruct (fold_has l' s' y Fl' Fs' J) as (z & K & Rz). exists z. split; [exact K|]. eapply Tr; eassumption.
    - intros x I. apply fold_from in I.
      assert (Rs' : reordered R s' s) by (apply (reordered_sym R); [intros ? ? _; apply Sy|exact Rs]).
      assert (Rl' : reordered R l' l) by (apply (reordered_sym R); [intros ? ? _; apply Sy|exact Rl]).
      assert (exists y, (In y s \/ In y l) /\ R x y) as (y & J & Ry).
      { destruct I as [I|I]; [destruct (reordered_in _ _ _ _ Rs' I) as (y & J & Ry)|destruct (reordered_in _ _ _ _ Rl' I) as (y & J & Ry)]; eauto. }
      destruct (fold_has l s y Fl Fs J) as (z & K & Rz). exists z. split; [exact K|]. apply Sy. eapply Tr; eassumption.
  Qed.
End SetFold.

(** ** Maps *)
Lemma lookup_reordered {A} (R : A -> A -> Prop) (ps : list (id * A)) : forall qs, NoDup (map fst ps) -> NoDup (map fst qs) ->
  (forall k, both R (get_id k ps) (get_id k qs)) -> reordered (fun p q => fst p = fst q /\ R (snd p) (snd q)) ps qs.
Proof.
  induction ps as [|[k v] ps IH]; intros qs D D' H.
  - destruct qs as [|[k v] qs]; [exists []; constructor|]. specialize (H k). cbn in H. rewrite (proj1 (reflect_iff _ _ (id_eqb_spec k k)) eq_refl) in H. inversion H.
  - pose proof (H k) as Hk. cbn in Hk. rewrite (proj1 (reflect_iff _ _ (id_eqb_spec k k)) eq_refl) in Hk. inversion Hk as [|? w Rw E1 E2]; subst.
    symmetry in E2. apply get_id_in in E2. apply in_split in E2. destruct E2 as (q1 & q2 & ->). cbn in D. inversion D as [|? ? NI Dp]; subst.
    assert (D2 : NoDup (map fst (q1 ++ q2)) /\ ~ In k (map fst (q1 ++ q2))).
    { rewrite map_app in *. cbn in D'. split; [exact (NoDup_remove_1 _ _ _ D')|exact (NoDup_remove_2 _ _ _ D')]. }
    destruct D2 as [D2 N2]. destruct (IH (q1 ++ q2) Dp D2) as [m P F].
    + intros k0. specialize (H k0). cbn in H. destruct (id_eqb_spec k0 k) as [E0|N].
      * subst k0. destruct (get_id k ps) as [x|] eqn:G; [apply get_id_in, (in_map fst) in G; contradiction|].
        destruct (get_id k (q1 ++ q2)) as [x|] eqn:G'; [apply get_id_in, (in_map fst) in G'; contradiction|constructor].
      * assert (G : get_id k0 (q1 ++ (k, w) :: q2) = get_id k0 (q1 ++ q2)).
        { clear -N. induction q1 as [|[k1 v1] q1 IH]; cbn; [destruct (id_eqb_spec k0 k); congruence|]. rewrite IH. reflexivity. }
        rewrite <- G. exact H.
    + exists ((k, w) :: m); [|constructor; auto]. eapply perm_trans; [apply Permutation_sym, Permutation_middle|]. constructor. exact P.
Qed.
Lemma reordered_lookup {A} (R : A -> A -> Prop) (ps qs : list (id * A)) : NoDup (map fst ps) -> NoDup (map fst qs) ->
  reordered (fun p q => fst p = fst q /\ R (snd p) (snd q)) ps qs -> forall k, both R (get_id k ps) (get_id k qs).
Proof.
  intros D D' O k. destruct (get_id k ps) as [v|] eqn:G.
  - apply get_id_in in G. destruct (reordered_in _ _ _ _ O G) as ([k' w] & J & E & X). cbn in E, X. subst k'.
    rewrite (get_id_nodup _ _ _ D' J). constructor. exact X.
  - destruct (get_id k qs) as [w|] eqn:G'; [|constructor]. exfalso. apply get_id_in in G'.
    pose proof (reordered_sym _ (fun q p => fst p = fst q /\ R (snd p) (snd q)) _ _ (fun _ _ _ X => X) O) as O'.
    destruct (reordered_in _ _ _ _ O' G') as ([k' v] & J & E & X). cbn in E. subst k'. rewrite (get_id_nodup _ _ _ D J) in G. discriminate.
Qed.
Lemma get_insert {A} k p (l : list A) ps : get_id k (insert_all p l ps) = if id_eqb k p then Some (opt_list (get_id p ps) ++ l) else get_id k ps.
Proof.
  induction ps as [|[q w] ps IH]; cbn.
  - destruct (id_eqb_spec k p); reflexivity.
  - destruct (id_eqb_spec p q) as [->|N]; cbn; [destruct (id_eqb_spec k q); reflexivity|]. rewrite IH.
    destruct (id_eqb_spec k q) as [->|N']; [|reflexivity]. destruct (id_eqb_spec q p); [congruence|reflexivity].
Qed.

(** ** Objects and nodes *)
Definition sim (x y : iobj) : Prop := same_i x y /\ wf (snd x) /\ wf (snd y).
Definition simn (x y : inode) : Prop := same_in x y /\ wf_node (snd x) /\ wf_node (snd y).
Definition maps {A} (R : A -> A -> Prop) (a b : list (id * list A)) : Prop := forall k, both (reordered R) (get_id k a) (get_id k b).
Record nsim (n m : node) : Prop := MkNsim {
  ns_id : n_id n = n_id m;
  ns_types : both (fun a b => reordered eq a b) (n_types n) (n_types m);
  ns_graph : both (reordered sim) (n_graph n) (n_graph m);
  ns_inc : both (reordered simn) (n_included n) (n_included m);
  ns_props : maps sim (n_props n) (n_props m);
  ns_rev : both (maps simn) (n_reverse n) (n_reverse m);
  ns_wl : wf_node n;
  ns_wr : wf_node m }.

Lemma sim_wl x y : sim x y -> wf (snd x). Proof. intros H. apply H. Qed.
Lemma sim_wr x y : sim x y -> wf (snd y). Proof. intros H. apply H. Qed.
Lemma simn_wl x y : simn x y -> wf_node (snd x). Proof. intros H. apply H. Qed.
Lemma simn_wr x y : simn x y -> wf_node (snd y). Proof. intros H. apply H. Qed.
Lemma same_i_refl x : same_i x x. Proof. split; [reflexivity|apply same_refl]. Qed.
Lemma same_in_refl x : same_in x x. Proof. split; [reflexivity|apply same_refl_both]. Qed.
Lemma sim_refl x : wf (snd x) -> sim x x. Proof. intros W. split; [apply same_i_refl|auto]. Qed.
Lemma simn_refl x : wf_node (snd x) -> simn x x. Proof. intros W. split; [apply same_in_refl|auto]. Qed.
Lemma sim_sym x y : sim x y -> sim y x. Proof. intros (H & A & B). split; [apply same_i_sym, H|auto]. Qed.
Lemma simn_sym x y : simn x y -> simn y x. Proof. intros (H & A & B). split; [apply same_in_sym, H|auto]. Qed.
Lemma sim_trans x y z : sim x y -> sim y z -> sim x z. Proof. intros (H & A & B) (H' & A' & B'). split; [eapply same_i_trans; eassumption|auto]. Qed.
Lemma simn_trans x y z : simn x y -> simn y z -> simn x z. Proof. intros (H & A & B) (H' & A' & B'). split; [eapply same_in_trans; eassumption|auto]. Qed.
Lemma sims_refl l : Forall (fun x : iobj => wf (snd x)) l -> reordered sim l l.
Proof. intros F. apply reordered_refl. eapply Forall_impl; [|exact F]. intros x. apply sim_refl. Qed.
Lemma simns_refl (l : list inode) : Forall (fun x => wf_node (snd x)) l -> reordered simn l l.
Proof. intros F. apply reordered_refl. eapply Forall_impl; [|exact F]. intros x. apply simn_refl. Qed.
Lemma both_imp {A} (R S : A -> A -> Prop) a b : (forall x y, a = Some x -> b = Some y -> R x y -> S x y) -> both R a b -> both S a b.
Proof. intros H K. destruct K; constructor. apply H; auto. Qed.
Lemma maps_refl {A} (R : A -> A -> Prop) (P : A -> Prop) ps : (forall x, P x -> R x x) -> Forall (fun p => Forall P (snd p)) ps -> maps R ps ps.
Proof.
  intros H F k. apply both_refl. intros v G. apply get_id_in in G. apply reordered_refl. pose proof (Forall_in _ _ _ F G) as Fv. eapply Forall_impl; [|exact Fv]. exact H.
Qed.
Lemma maps_trans {A} (R : A -> A -> Prop) a b c : (forall x y z, R x y -> R y z -> R x z) -> maps R a b -> maps R b c -> maps R a c.
Proof. intros T H K k. eapply both_trans; [|apply H|apply K]. intros x y z _. apply reordered_trans. intros ? ? ? _. apply T. Qed.
Lemma nsim_refl n : wf_node n -> nsim n n.
Proof.
  intros W. destruct n as [i ts g inc ps rs]. pose proof W as W0. inversion W as [? ? ? ? ? ? W1 W2 W3 W4 W5 W6 W7 W8]; subst. constructor; cbn; auto.
  - apply both_refl. intros x _. apply reordered_refl. apply Forall_forall. auto.
  - apply both_refl. intros x ->. apply sims_refl, W1.
  - apply both_refl. intros x ->. apply simns_refl, W3.
  - eapply maps_refl; [|exact W6]. intros x. apply sim_refl.
  - apply both_refl. intros x ->. cbn in *. eapply maps_refl; [|exact W8]. intros y. apply simn_refl.
Qed.
Lemma nsim_trans a b c : nsim a b -> nsim b c -> nsim a c.
Proof.
  intros [H1 H2 H3 H4 H5 H6 H7 H8] [K1 K2 K3 K4 K5 K6 K7 K8]. constructor; auto.
  - congruence.
  - eapply both_trans; [|exact H2|exact K2]. intros x y z _. apply reordered_trans. congruence.
  - eapply both_trans; [|exact H3|exact K3]. intros x y z _. apply reordered_trans. intros ? ? ? _. apply sim_trans.
  - eapply both_trans; [|exact H4|exact K4]. intros x y z _. apply reordered_trans. intros ? ? ? _. apply simn_trans.
  - eapply maps_trans; [apply sim_trans|exact H5|exact K5].
  - eapply both_trans; [|exact H6|exact K6]. intros x y z _. apply maps_trans. apply simn_trans.
Qed.
Lemma nsim_same n m : nsim n m -> same_node n m.
Proof.
  intros [H1 H2 H3 H4 H5 H6 H7 H8]. destruct n as [i ts g inc ps rs], m as [i' ts' g' inc' ps' rs']. cbn in *. subst i'.
  inversion H7 as [? ? ? ? ? ? W1 W2 W3 W4 W5 W6 W7 W8]; inversion H8 as [? ? ? ? ? ? V1 V2 V3 V4 V5 V6 V7 V8]; subst. constructor.
  - exact H2.
  - eapply both_imp; [|exact H3]. intros x y _ _. apply reordered_impl. intros ? ? _ _ X. apply X.
  - eapply both_imp; [|exact H4]. intros x y _ _. apply reordered_impl. intros ? ? _ _ X. apply X.
  - apply (lookup_reordered (fun a b => reordered (fun x y => fst x = fst y /\ same (snd x) (snd y)) a b)); [assumption..|]. intros k. eapply both_imp; [|apply H5]. intros x y _ _. apply reordered_impl. intros ? ? _ _ X. apply X.
  - eapply both_imp; [|exact H6]. intros x y -> -> M. cbn in *. apply (lookup_reordered (fun a b => reordered (fun x y => fst x = fst y /\ same_node (snd x) (snd y)) a b)); [assumption..|]. intros k. eapply both_imp; [|apply M]. intros a b _ _. apply reordered_impl. intros ? ? _ _ X. apply X.
Qed.
Lemma same_nsim n m : same_node n m -> wf_node n -> wf_node m -> nsim n m.
Proof.
  intros H H7 H8. destruct H as [i ts ts' g g' inc inc' ps ps' rs rs' S1 S2 S3 S4 S5]. pose proof H7 as W. pose proof H8 as V.
  inversion W as [? ? ? ? ? ? W1 W2 W3 W4 W5 W6 W7 W8]; inversion V as [? ? ? ? ? ? V1 V2 V3 V4 V5 V6 V7 V8]; subst. constructor; cbn; auto.
  - eapply both_imp; [|exact S2]. intros x y -> ->. apply reordered_impl. intros a b I J X. split; [exact X|]. split; [exact (Forall_in _ _ _ W1 I)|exact (Forall_in _ _ _ V1 J)].
  - eapply both_imp; [|exact S3]. intros x y -> ->. apply reordered_impl. intros a b I J X. split; [exact X|]. split; [exact (Forall_in _ _ _ W3 I)|exact (Forall_in _ _ _ V3 J)].
  - intros k. pose proof (reordered_lookup (fun a b => reordered same_i a b) _ _ W5 V5 S4 k) as L. eapply both_imp; [|exact L].
    intros x y G G'. apply get_id_in in G. apply get_id_in in G'. apply reordered_impl. intros a b I J X. split; [exact X|].
    split; [exact (Forall_in _ _ _ (Forall_in _ _ _ W6 G) I)|exact (Forall_in _ _ _ (Forall_in _ _ _ V6 G') J)].
  - eapply both_imp; [|exact S5]. intros x y -> -> M k. cbn in *. pose proof (reordered_lookup (fun a b => reordered same_in a b) _ _ W7 V7 M k) as L. eapply both_imp; [|exact L].
    intros u v G G'. apply get_id_in in G. apply get_id_in in G'. apply reordered_impl. intros a b I J X. split; [exact X|].
    split; [exact (Forall_in _ _ _ (Forall_in _ _ _ W8 G) I)|exact (Forall_in _ _ _ (Forall_in _ _ _ V8 G') J)].
Qed.
Lemma nsim_sim i n m : nsim n m -> sim (i, ONode n) (i, ONode m).
Proof. intros H. split; [split; [reflexivity|constructor; apply nsim_same, H]|]. split; constructor; apply H. Qed.
Lemma sim_nsim i j n m : sim (i, ONode n) (j, ONode m) -> i = j /\ nsim n m.
Proof. intros ([E S] & W & V). cbn in *. split; [exact E|]. inversion S; inversion W; inversion V; subst. apply same_nsim; assumption. Qed.

(** ** Updates *)
Section Upd.
Variables (fin rnd : list word -> N).

Inductive upd : Type :=
| UId (i : option id) | UTypes (l : list id) | UGraph (l : list iobj) | UInc (l : list inode)
| UFlag | UIndex (i : string) | UProp (p : id) (l : list iobj) | URev (p : id) (l : list inode).
Definition add_types (l : list id) (n : node) : node := fold_left (fun n t => push_type t n) l n.
Definition app_upd (s : nstate) (u : upd) : nstate :=
  match u with
  | UId i => on_node (set_nid i) s
  | UTypes l => on_node (add_types l) s
  | UGraph l => on_node (set_ngraph (Some l)) s
  | UInc l => on_node (add_included fin rnd l) s
  | UFlag => (fst s, true)
  | UIndex i => ((Some i, snd (fst s)), snd s)
  | UProp p l => on_node (add_prop p l) s
  | URev p l => on_node (add_reverse p l) s
  end.
Inductive usim : upd -> upd -> Prop :=
| UsId i : usim (UId i) (UId i)
| UsTypes l : usim (UTypes l) (UTypes l)
| UsGraph l m : reordered sim l m -> distinct same_i l -> distinct same_i m -> usim (UGraph l) (UGraph m)
| UsInc l m : reordered simn l m -> usim (UInc l) (UInc m)
| UsFlag : usim UFlag UFlag
| UsIndex i : usim (UIndex i) (UIndex i)
| UsProp p l m : reordered sim l m -> usim (UProp p l) (UProp p m)
| UsRev p l m : reordered simn l m -> usim (URev p l) (URev p m).
Definition ssim (s t : nstate) : Prop := fst (fst s) = fst (fst t) /\ snd s = snd t /\ nsim (snd (fst s)) (snd (fst t)).

Lemma add_types_cases l i ts g inc ps rs : add_types l (MkNode i ts g inc ps rs) =
  match l with [] => MkNode i ts g inc ps rs | _ => MkNode i (Some (opt_list ts ++ l)) g inc ps rs end.
Proof.
  unfold add_types. revert ts. induction l as [|t l IH]; intros ts; [reflexivity|]. cbn [fold_left push_type]. rewrite IH.
  destruct l; [reflexivity|]. cbn [opt_list]. rewrite <- app_assoc. reflexivity.
Qed.
Lemma inode_spec x y : wf_node (snd x) -> wf_node (snd y) -> (inode_eqb fin rnd x y = true <-> same_in x y).
Proof. destruct x, y. cbn. intros V W. unfold inode_eqb, same_in. rewrite andb_true_iff, opt_streq, (proj2 (eqb_both fin rnd) _ _ V W). reflexivity. Qed.
Lemma inode_hash_same x y : same_in x y -> inode_hash fin rnd x = inode_hash fin rnd y.
Proof. destruct x as [a x], y as [b y]. intros [E S]. unfold inode_hash, inode_words. cbn in *. subst. rewrite (proj2 (same_words_both fin) _ _ S). reflexivity. Qed.
Lemma iobj_spec x y : wf (snd x) -> wf (snd y) -> (iobj_eqb fin rnd x y = true <-> same_i x y).
Proof. destruct x, y. cbn. intros V W. unfold iobj_eqb, same_i. rewrite andb_true_iff, opt_streq, (proj1 (eqb_both fin rnd) _ _ V W). reflexivity. Qed.
Lemma iobj_hash_same x y : same_i x y -> iobj_hash fin rnd x = iobj_hash fin rnd y.
Proof. destruct x as [a x], y as [b y]. intros [E S]. unfold iobj_hash, iobj_words. cbn in *. subst. rewrite (proj1 (same_words_both fin) _ _ S). reflexivity. Qed.
Lemma sims_l l m : reordered sim l m -> Forall (fun x => wf (snd x)) l. Proof. intros H. exact (reordered_fl _ _ _ _ H sim_wl). Qed.
Lemma sims_r l m : reordered sim l m -> Forall (fun x => wf (snd x)) m. Proof. intros H. exact (reordered_fr _ _ _ _ H sim_wr). Qed.
Lemma simns_l l m : reordered simn l m -> Forall (fun x => wf_node (snd x)) l. Proof. intros H. exact (reordered_fl _ _ _ _ H simn_wl). Qed.
Lemma simns_r l m : reordered simn l m -> Forall (fun x => wf_node (snd x)) m. Proof. intros H. exact (reordered_fr _ _ _ _ H simn_wr). Qed.
Lemma sims_same l m : reordered sim l m -> reordered same_i l m. Proof. apply reordered_impl. intros ? ? _ _ X. apply X. Qed.
Lemma simns_same l m : reordered simn l m -> reordered same_in l m. Proof. apply reordered_impl. intros ? ? _ _ X. apply X. Qed.
Lemma sims_of l m : Forall (fun x => wf (snd x)) l -> Forall (fun x => wf (snd x)) m -> reordered same_i l m -> reordered sim l m.
Proof. intros V W. apply reordered_impl. intros x y I J X. split; [exact X|]. split; [exact (Forall_in _ _ _ V I)|exact (Forall_in _ _ _ W J)]. Qed.
Lemma simns_of l m : Forall (fun x => wf_node (snd x)) l -> Forall (fun x => wf_node (snd x)) m -> reordered same_in l m -> reordered simn l m.
Proof. intros V W. apply reordered_impl. intros x y I J X. split; [exact X|]. split; [exact (Forall_in _ _ _ V I)|exact (Forall_in _ _ _ W J)]. Qed.
Lemma oset_wf l : Forall (fun x => wf (snd x)) l -> Forall (fun x => wf (snd x)) (oset fin rnd l) /\ distinct same_i (oset fin rnd l).
Proof.
  intros F. apply (set_fold (iobj_hash fin rnd) (iobj_eqb fin rnd) same_i (fun x => wf (snd x))); [| |exact F|constructor|constructor].
  - intros x y V W. apply (iobj_spec x y V W).
  - apply iobj_hash_same.
Qed.
Lemma oset_sim l m : reordered sim l m -> reordered sim (oset fin rnd l) (oset fin rnd m).
Proof.
  intros H. apply sims_of; [apply oset_wf, (sims_l _ _ H)|apply oset_wf, (sims_r _ _ H)|].
  apply (fold_same (iobj_hash fin rnd) (iobj_eqb fin rnd) same_i (fun x => wf (snd x))).
  - apply iobj_spec.
  - apply iobj_hash_same.
  - apply same_i_refl.
  - apply same_i_sym.
  - apply same_i_trans.
  - exact (sims_l _ _ H).
  - exact (sims_r _ _ H).
  - constructor.
  - constructor.
  - constructor.
  - constructor.
  - apply sims_same, H.
  - exists []; constructor.
Qed.
Lemma nset_wf l s : Forall (fun x => wf_node (snd x)) l -> Forall (fun x => wf_node (snd x)) s -> distinct same_in s ->
  Forall (fun x => wf_node (snd x)) (fold_left (nset_insert fin rnd) l s) /\ distinct same_in (fold_left (nset_insert fin rnd) l s).
Proof.
  intros F G D. apply (set_fold (inode_hash fin rnd) (inode_eqb fin rnd) same_in (fun x => wf_node (snd x))); [| |exact F|exact G|exact D].
  - intros x y V W. apply (inode_spec x y V W).
  - apply inode_hash_same.
Qed.
Lemma insert_sim {A} (R : A -> A -> Prop) p l m ps qs : maps R ps qs -> reordered R l m -> maps R (insert_all p l ps) (insert_all p m qs).
Proof.
  intros H L k. rewrite !get_insert. destruct (id_eqb k p); [|apply H]. constructor. apply reordered_app; [|exact L].
  specialize (H p). inversion H; [exists []; constructor|assumption].
Qed.

Lemma prop_sim p l m n n' : nsim n n' -> reordered sim l m -> nsim (add_prop p l n) (add_prop p m n').
Proof.
  intros [H1 H2 H3 H4 H5 H6 H7 H8] L. destruct n as [i ts g inc ps rs], n' as [i' ts' g' inc' ps' rs']. cbn in *.
  inversion H7 as [? ? ? ? ? ? W1 W2 W3 W4 W5 W6 W7 W8]; inversion H8 as [? ? ? ? ? ? V1 V2 V3 V4 V5 V6 V7 V8]; subst. constructor; cbn; auto.
  - apply insert_sim; assumption.
  - constructor; auto; [apply insert_all_nodup; assumption|apply insert_all_values; [exact (sims_l _ _ L)|assumption]].
  - constructor; auto; [apply insert_all_nodup; assumption|apply insert_all_values; [exact (sims_r _ _ L)|assumption]].
Qed.
Lemma rev_sim p l m n n' : nsim n n' -> reordered simn l m -> nsim (add_reverse p l n) (add_reverse p m n').
Proof.
  intros [H1 H2 H3 H4 H5 H6 H7 H8] L. destruct n as [i ts g inc ps rs], n' as [i' ts' g' inc' ps' rs']. cbn in *.
  inversion H7 as [? ? ? ? ? ? W1 W2 W3 W4 W5 W6 W7 W8]; inversion H8 as [? ? ? ? ? ? V1 V2 V3 V4 V5 V6 V7 V8]; subst. constructor; cbn; auto.
  - constructor. apply insert_sim; [|exact L]. destruct H6; [intros k; constructor|assumption].
  - constructor; auto; cbn [opt_list]; [apply insert_all_nodup; assumption|apply insert_all_values; [exact (simns_l _ _ L)|assumption]].
  - constructor; auto; cbn [opt_list]; [apply insert_all_nodup; assumption|apply insert_all_values; [exact (simns_r _ _ L)|assumption]].
Qed.
Lemma id_sim i n n' : nsim n n' -> nsim (set_nid i n) (set_nid i n').
Proof.
  intros [H1 H2 H3 H4 H5 H6 H7 H8]. destruct n, n'. cbn in *. inversion H7; inversion H8; subst. constructor; cbn; auto; constructor; assumption.
Qed.
Lemma graph_sim l m n n' : nsim n n' -> reordered sim l m -> distinct same_i l -> distinct same_i m -> nsim (set_ngraph (Some l) n) (set_ngraph (Some m) n').
Proof.
  intros [H1 H2 H3 H4 H5 H6 H7 H8] L D D'. destruct n, n'. cbn in *. inversion H7; inversion H8; subst. constructor; cbn; auto.
  - constructor. exact L.
  - constructor; auto. exact (sims_l _ _ L).
  - constructor; auto. exact (sims_r _ _ L).
Qed.
Lemma types_sim l n n' : nsim n n' -> nsim (add_types l n) (add_types l n').
Proof.
  intros H. destruct n as [i ts g inc ps rs], n' as [i' ts' g' inc' ps' rs']. rewrite !add_types_cases. destruct l as [|t l]; [exact H|].
  destruct H as [H1 H2 H3 H4 H5 H6 H7 H8]. cbn in *. inversion H7; inversion H8; subst. constructor; cbn; auto; try (constructor; assumption).
  constructor. apply reordered_app; [destruct H2; [exists []; constructor|assumption]|]. apply reordered_refl. apply Forall_forall. auto.
Qed.
Lemma unshift_sim t n n' : nsim n n' -> nsim (unshift_type t n) (unshift_type t n').
Proof.
  intros H. destruct n as [i ts g inc ps rs], n' as [i' ts' g' inc' ps' rs'].
  destruct H as [H1 H2 H3 H4 H5 H6 H7 H8]. cbn in *. inversion H7; inversion H8; subst. constructor; cbn; auto; try (constructor; assumption).
  constructor. change (reordered eq ([t] ++ opt_list ts) ([t] ++ opt_list ts')). apply reordered_app; [exists [t]; repeat constructor|].
  destruct H2; [exists []; constructor|assumption].
Qed.
Lemma inc_sim l m n n' : nsim n n' -> reordered simn l m -> nsim (add_included fin rnd l n) (add_included fin rnd m n').
Proof.
  intros [H1 H2 H3 H4 H5 H6 H7 H8] L. destruct n as [i ts g inc ps rs], n' as [i' ts' g' inc' ps' rs']. cbn in *.
  inversion H7 as [? ? ? ? ? ? W1 W2 W3 W4 W5 W6 W7 W8]; inversion H8 as [? ? ? ? ? ? V1 V2 V3 V4 V5 V6 V7 V8]; subst.
  destruct (nset_wf l (opt_list inc) (simns_l _ _ L) W3 W4) as [X1 X2]. destruct (nset_wf m (opt_list inc') (simns_r _ _ L) V3 V4) as [Y1 Y2].
  constructor; cbn; auto; try (constructor; assumption). constructor. apply simns_of; [exact X1|exact Y1|].
  apply (fold_same (inode_hash fin rnd) (inode_eqb fin rnd) same_in (fun x => wf_node (snd x))).
  - apply inode_spec.
  - apply inode_hash_same.
  - apply same_in_refl.
  - apply same_in_sym.
  - apply same_in_trans.
  - exact (simns_l _ _ L).
  - exact (simns_r _ _ L).
  - exact W3.
  - exact V3.
  - exact W4.
  - exact V4.
  - apply simns_same, L.
  - destruct H4; [exists []; constructor|apply simns_same; assumption].
Qed.
Lemma app_sim s t u v : ssim s t -> usim u v -> ssim (app_upd s u) (app_upd t v).
Proof.
  intros (A & B & C) U. destruct s as [[i n] f], t as [[j m] g]. cbn in A, B, C. subst. unfold ssim. 
  destruct U; cbn; (split; [reflexivity|]); (split; [reflexivity|]); [exact (id_sim _ _ _ C)|exact (types_sim _ _ _ C)|exact (graph_sim _ _ _ _ C H H0 H1)|exact (inc_sim _ _ _ _ C H)|exact C|exact C|exact (prop_sim _ _ _ _ _ C H)|exact (rev_sim _ _ _ _ _ C H)].
Qed.
Lemma ssim_trans a b c : ssim a b -> ssim b c -> ssim a c.
Proof. intros (A & B & C) (D & E & F). split; [congruence|]. split; [congruence|]. eapply nsim_trans; eassumption. Qed.
Lemma fold_sim us vs : Forall2 usim us vs -> forall s t, ssim s t -> ssim (fold_left app_upd us s) (fold_left app_upd vs t).
Proof. induction 1; intros s t S; cbn; [exact S|]. apply IHForall2, app_sim; assumption. Qed.

(** Which two updates may be exchanged: not two that set the same thing. *)
Definition free (u v : upd) : Prop :=
  match u, v with UId _, UId _ | UTypes _, UTypes _ | UGraph _, UGraph _ | UInc _, UInc _ | UIndex _, UIndex _ => False | _, _ => True end.
Lemma free_sym u v : free u v -> free v u. Proof. destruct u, v; auto. Qed.
Lemma maps_swap {A} (R : A -> A -> Prop) (P : A -> Prop) p q l m ps : (forall x, P x -> R x x) -> Forall (fun e => Forall P (snd e)) ps -> Forall P l -> Forall P m ->
  maps R (insert_all q m (insert_all p l ps)) (insert_all p l (insert_all q m ps)).
Proof.
  intros H F Fl Fm k. rewrite !get_insert.
  assert (G : forall k, Forall P (opt_list (get_id k ps))).
  { intros k0. destruct (get_id k0 ps) eqn:E; [|constructor]. apply get_id_in in E. exact (Forall_in _ _ _ F E). }
  assert (Rf : forall l, Forall P l -> reordered R l l) by (intros l0 F0; apply reordered_refl; eapply Forall_impl; [|exact F0]; exact H).
  destruct (id_eqb_spec k q) as [E1|N1]; destruct (id_eqb_spec k p) as [E2|N2]; subst.
  - destruct (id_eqb_spec p p) as [_|N]; [|congruence]. cbn [opt_list]. constructor.
    rewrite <- !app_assoc. apply reordered_app; [apply Rf, G|]. eapply reordered_perm; [apply Rf, Forall_app; split; eassumption|]. apply Permutation_app_comm.
  - destruct (id_eqb_spec q p) as [E|N]; [congruence|]. constructor. apply Rf, Forall_app. auto.
  - destruct (id_eqb_spec p q) as [E|N]; [congruence|]. constructor. apply Rf, Forall_app. auto.
  - apply both_refl. intros x E. apply Rf. specialize (G k). rewrite E in G. exact G.
Qed.
Lemma app_swap s u v : ssim s s -> usim u u -> usim v v -> free u v -> ssim (app_upd (app_upd s u) v) (app_upd (app_upd s v) u).
Proof.
  intros S U V F. pose proof (app_sim _ _ _ _ (app_sim _ _ _ _ S U) V) as Z. pose proof (app_sim _ _ _ _ (app_sim _ _ _ _ S V) U) as Z'.
  destruct s as [[i n] f]. destruct n as [ni ts g inc ps rs].
  destruct u, v; try destruct F;
    try (unfold ssim, app_upd, on_node in *; cbn [fst snd set_nid set_ngraph add_included add_prop add_reverse] in *;
         rewrite ?add_types_cases in *;
         match goal with |- context [match ?l with [] => _ | _ => _ end] => destruct l end; exact Z);
    try (exact Z).
  - inversion U as [| | | | | |? ? ? Lu|]; inversion V as [| | | | | |? ? ? Lv|]; subst. destruct Z as (_ & _ & [A1 A2 A3 A4 A5 A6 A7 A8]). destruct Z' as (_ & _ & [B1 B2 B3 B4 B5 B6 B7 B8]).
    split; [reflexivity|]. split; [reflexivity|]. constructor; try assumption. cbn. destruct S as (_ & _ & [_ _ _ _ _ _ W _]). cbn in W. inversion W; subst.
    eapply maps_swap; [intros x; apply sim_refl|assumption|exact (sims_l _ _ Lu)|exact (sims_l _ _ Lv)].
  - inversion U as [| | | | | | |? ? ? Lu]; inversion V as [| | | | | | |? ? ? Lv]; subst. destruct Z as (_ & _ & [A1 A2 A3 A4 A5 A6 A7 A8]). destruct Z' as (_ & _ & [B1 B2 B3 B4 B5 B6 B7 B8]).
    split; [reflexivity|]. split; [reflexivity|]. constructor; try assumption. cbn. destruct S as (_ & _ & [_ _ _ _ _ _ W _]). cbn in W. inversion W; subst.
    constructor. eapply maps_swap; [intros x; apply simn_refl|assumption|exact (simns_l _ _ Lu)|exact (simns_l _ _ Lv)].
Qed.
Lemma ssim_l s t : ssim s t -> ssim s s.
Proof. intros (_ & _ & [_ _ _ _ _ _ W _]). split; [reflexivity|]. split; [reflexivity|]. apply nsim_refl, W. Qed.
Lemma usim_r u v : usim u v -> usim v v.
Proof.
  destruct 1; constructor; auto; try (apply sims_refl; eapply sims_r; eassumption); apply simns_refl; eapply simns_r; eassumption.
Qed.
(** Any order of updates that may be exchanged gives the same. *)
Lemma perm_sim us vs : Permutation us vs -> Forall (fun u => usim u u) us -> ForallOrdPairs free us -> forall s, ssim s s ->
  ssim (fold_left app_upd us s) (fold_left app_upd vs s).
Proof.
  assert (FP : forall us vs, Permutation us vs -> ForallOrdPairs free us -> ForallOrdPairs free vs).
  { induction 1 as [|x l m P IH|x y l|l m k P IH Q IH']; intros F; auto.
    - inversion F as [|? ? Fx Fl]; subst. constructor; [|auto]. apply Forall_forall. intros y I. apply (Forall_in _ _ _ Fx). eapply Permutation_in; [apply Permutation_sym, P|exact I].
    - inversion F as [|? ? Fy Fl]; subst. inversion Fl as [|? ? Fx Fl']; subst. inversion Fy; subst. constructor; [constructor; [apply free_sym; assumption|assumption]|constructor; assumption]. }
  assert (RF : forall us : list upd, Forall (fun u => usim u u) us -> Forall2 usim us us) by (induction 1; constructor; auto).
  induction 1 as [|x l m P IH|x y l|l m k P IH Q IH']; intros U F s S; cbn.
  - exact S.
  - inversion U; subst. inversion F; subst. apply IH; auto. apply app_sim; assumption.
  - inversion U as [|? ? Uy U']; subst. inversion U' as [|? ? Ux Ul]; subst. inversion F as [|? ? Fy _]; subst. inversion Fy; subst.
    apply fold_sim; [apply RF, Ul|]. apply app_swap; assumption.
  - eapply ssim_trans; [apply IH; auto|]. apply IH'; auto.
    + apply Forall_forall. intros z I. apply (Forall_in _ _ _ U). eapply Permutation_in; [apply Permutation_sym, P|exact I].
    + exact (FP _ _ P F).
Qed.
Lemma reordered_upds us vs s t : reordered usim us vs -> ForallOrdPairs free vs -> ssim s t -> ssim (fold_left app_upd us s) (fold_left app_upd vs t).
Proof.
  intros [ws P F] D S. eapply ssim_trans; [apply (fold_sim _ _ F _ _ S)|].
  assert (G : Forall (fun u => usim u u) ws) by (eapply Forall2_and_r; [exact F|]; intros ? ?; apply usim_r).
  assert (St : ssim t t).
  { destruct S as (_ & _ & [_ _ _ _ _ _ _ W]). split; [reflexivity|]. split; [reflexivity|]. apply nsim_refl, W. }
  assert (X : ssim (fold_left app_upd vs t) (fold_left app_upd ws t)).
  { apply perm_sim; auto. apply Forall_forall. intros z I. apply (Forall_in _ _ _ G). eapply Permutation_in; [exact P|exact I]. }
  clear -X. destruct X as (A & B & C). split; [congruence|]. split; [congruence|].
  destruct C as [H1 H2 H3 H4 H5 H6 H7 H8]. constructor; auto.
  - destruct H2; constructor. apply (reordered_sym eq); [congruence|assumption].
  - destruct H3; constructor. apply (reordered_sym sim); [intros ? ? _; apply sim_sym|assumption].
  - destruct H4; constructor. apply (reordered_sym simn); [intros ? ? _; apply simn_sym|assumption].
  - intros k. specialize (H5 k). destruct H5; constructor. apply (reordered_sym sim); [intros ? ? _; apply sim_sym|assumption].
  - destruct H6 as [|x y M]; constructor. intros k. specialize (M k). destruct M; constructor. apply (reordered_sym simn); [intros ? ? _; apply simn_sym|assumption].
Qed.
End Upd.

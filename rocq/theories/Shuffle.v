(** The order of the entries of JSON objects does not matter for expansion: used for C95. *)
From Verif Require Import Prelude Json Str Keyword Enums LangTag LangString Container Stack ContextSyntax Ctx Process ProcessRel
  Object ObjectEq ObjectJson ObjectJsonProofs CompactIri Expand ExpandOk ShuffleNode.

(** ** Specification *)

(** The same JSON value up to the order of the entries of its objects; local contexts are left
    as they are. *)
Inductive shuffled : json -> json -> Prop :=
| ShNull : shuffled JNull JNull
| ShBool b : shuffled (JBool b) (JBool b)
| ShNum n : shuffled (JNum n) (JNum n)
| ShStr s : shuffled (JStr s) (JStr s)
| ShArr l l' : Forall2 shuffled l l' -> shuffled (JArr l) (JArr l')
| ShObj m m' :
    reordered (fun e e' => fst e = fst e' /\ (fst e = "@context" /\ snd e = snd e' \/ fst e <> "@context" /\ shuffled (snd e) (snd e'))) m m' ->
    shuffled (JObj m) (JObj m').

(** What is asked of the keys of an object read in a context: no key twice, no two keys for one
    keyword, no [@nest], and not both [@reverse] and a reverse property. *)
Record clear (io : iops) (o : xopts) (c : actx) (m : jobject) : Prop := MkClear {
  cl_keys : NoDup (map fst m);
  cl_kw : forall k k' w, In k (map fst m) -> In k' (map fst m) ->
    xkey io o c k = Ok (Some (TmKw w)) -> xkey io o c k' = Ok (Some (TmKw w)) -> k = k';
  cl_nest : forall k, In k (map fst m) -> xkey io o c k <> Ok (Some (TmKw KNest));
  cl_rev : forall k k' d, In k (map fst m) -> In k' (map fst m) ->
    xkey io o c k = Ok (Some (TmKw KReverse)) -> get_normal c k' = Some d -> nd_reverse d = false }.
(** Nothing is a JSON literal. *)
Definition no_json (io : iops) (o : xopts) (doc : json) (c : actx) : Prop :=
  (forall k d, get_normal c k = Some d -> nd_typ d <> Some TyJson) /\
  (forall s dr, part (JStr s) doc -> xiri io c s dr (Some (xo_vocab o)) <> Ok (Some (TmKw KJson))).

(** ** Proof *)
Definition ent (e e' : string * json) : Prop :=
  fst e = fst e' /\ (fst e = "@context" /\ snd e = snd e' \/ fst e <> "@context" /\ shuffled (snd e) (snd e')).
Lemma shuffled_refl j : shuffled j j.
Proof.
  induction j as [|b|n|s|l IH|l IH] using json_ind'; constructor.
  - induction IH; constructor; auto.
  - apply reordered_refl. eapply Forall_impl; [|exact IH]. intros [k v] H. split; [reflexivity|]. cbn in *.
    destruct (streq_spec k "@context"); [left; auto|right; auto].
Qed.
Lemma ent_fst e e' : ent e e' -> fst e = fst e'. Proof. intros H. apply H. Qed.
Lemma ent_snd e e' : ent e e' -> shuffled (snd e) (snd e').
Proof. intros [_ [[_ ->]|[_ H]]]; [apply shuffled_refl|exact H]. Qed.
Lemma shuffled_str v v' : shuffled v v' -> as_str v = as_str v'. Proof. destruct 1; reflexivity. Qed.
Lemma shuffled_force v v' : shuffled v v' -> Forall2 shuffled (force_array v) (force_array v').
Proof. intros H. destruct H; cbn; try assumption; repeat constructor; assumption. Qed.
Lemma ents_keys m m' : reordered ent m m' -> Permutation (map fst m) (map fst m').
Proof.
  intros [k P F]. apply Permutation_trans with (map fst k); [|apply Permutation_map, Permutation_sym, P].
  clear P. induction F as [|x y l l' E F IH]; [constructor|]. cbn. rewrite (ent_fst _ _ E). constructor. exact IH.
Qed.

(** *** Folds *)
Lemma flat_f2 {A B X} (f g : A -> result (list B) X) (R : A -> A -> Prop) (S : B -> B -> Prop) l l' r :
  Forall2 R l l' -> (forall x y ys, In x l -> R x y -> f x = Ok ys -> exists ys', g y = Ok ys' /\ Forall2 S ys ys') ->
  flat_r f l = Ok r -> exists r', flat_r g l' = Ok r' /\ Forall2 S r r'.
Proof.
  intros F. revert r. induction F as [|x y l l' E F IH]; intros r H K; cbn in K; [injection K as <-; exists []; split; [reflexivity|constructor]|].
  apply bind_ok in K. destruct K as (a & Ea & K). apply bind_ok in K. destruct K as (b & Eb & K). injection K as <-.
  destruct (H _ _ _ (or_introl eq_refl) E Ea) as (a' & Ea' & Sa). destruct (IH b) as (b' & Eb' & Sb); [intros; eapply H; [right|..]; eassumption|exact Eb|].
  exists (a' ++ b'). cbn. rewrite Ea', Eb'. split; [reflexivity|]. apply Forall2_app; assumption.
Qed.
Lemma flat_f2r {A B X} (f g : A -> result (list B) X) (R : A -> A -> Prop) (S : B -> B -> Prop) l l' r :
  Forall2 R l l' -> (forall x y ys, In x l -> R x y -> f x = Ok ys -> exists ys', g y = Ok ys' /\ reordered S ys ys') ->
  flat_r f l = Ok r -> exists r', flat_r g l' = Ok r' /\ reordered S r r'.
Proof.
  intros F. revert r. induction F as [|x y l l' E F IH]; intros r H K; cbn in K; [injection K as <-; exists []; split; [reflexivity|exists []; constructor]|].
  apply bind_ok in K. destruct K as (a & Ea & K). apply bind_ok in K. destruct K as (b & Eb & K). injection K as <-.
  destruct (H _ _ _ (or_introl eq_refl) E Ea) as (a' & Ea' & Sa). destruct (IH b) as (b' & Eb' & Sb); [intros; eapply H; [right|..]; eassumption|exact Eb|].
  exists (a' ++ b'). cbn. rewrite Ea', Eb'. split; [reflexivity|]. apply reordered_app; assumption.
Qed.
Lemma flat_perm {A B X} (f : A -> result (list B) X) l l' : Permutation l l' -> forall r, flat_r f l = Ok r -> exists r', flat_r f l' = Ok r' /\ Permutation r r'.
Proof.
  induction 1 as [|x l m P IH|x y l|l m k P IH Q IH']; intros r H.
  - exists r. split; [exact H|apply Permutation_refl].
  - cbn in H. apply bind_ok in H. destruct H as (a & Ea & H). apply bind_ok in H. destruct H as (b & Eb & H). injection H as <-.
    destruct (IH _ Eb) as (b' & Eb' & Pb). exists (a ++ b'). cbn. rewrite Ea, Eb'. split; [reflexivity|]. apply Permutation_app_head, Pb.
  - cbn in H. apply bind_ok in H. destruct H as (a & Ea & H). apply bind_ok in H. destruct H as (b & Eb & H). injection H as <-.
    apply bind_ok in Eb. destruct Eb as (b1 & Eb1 & Eb). apply bind_ok in Eb. destruct Eb as (b2 & Eb2 & Eb). injection Eb as <-.
    exists (b1 ++ a ++ b2). cbn. rewrite Eb1, Ea, Eb2. split; [reflexivity|]. rewrite !app_assoc. apply Permutation_app_tail, Permutation_app_comm.
  - destruct (IH _ H) as (r1 & E1 & P1). destruct (IH' _ E1) as (r2 & E2 & P2). exists r2. split; [exact E2|]. eapply perm_trans; eassumption.
Qed.
Lemma flat_rel {A B X} (f g : A -> result (list B) X) (R : A -> A -> Prop) (S : B -> B -> Prop) l l' r :
  reordered R l l' -> (forall x y ys, In x l -> R x y -> f x = Ok ys -> exists ys', g y = Ok ys' /\ reordered S ys ys') ->
  flat_r f l = Ok r -> exists r', flat_r g l' = Ok r' /\ reordered S r r'.
Proof.
  intros [k P F] H K. destruct (flat_f2r f g R S _ _ _ F H K) as (r1 & E1 & S1).
  destruct (flat_perm g _ _ (Permutation_sym P) _ E1) as (r2 & E2 & P2). exists r2. split; [exact E2|]. eapply reordered_perm; eassumption.
Qed.
Lemma fold_perm {A B X} (f : A -> B -> result A X) (C : B -> B -> Prop) :
  (forall x y, C x y -> C y x) ->
  (forall a x y r, C x y -> (do b <- f a x ; f b y) = Ok r -> (do b <- f a y ; f b x) = Ok r) ->
  forall l l', Permutation l l' -> ForallOrdPairs C l -> forall a r, fold_r f a l = Ok r -> fold_r f a l' = Ok r.
Proof.
  intros Sy H.
  assert (FP : forall l l', Permutation l l' -> ForallOrdPairs C l -> ForallOrdPairs C l').
  { induction 1 as [|x l m P IH|x y l|l m k P IH Q IH']; intros F; auto.
    - inversion F as [|? ? Fx Fl]; subst. constructor; [|auto]. apply Forall_forall. intros y I. apply (Forall_in _ _ _ Fx). eapply Permutation_in; [apply Permutation_sym, P|exact I].
    - inversion F as [|? ? Fy Fl]; subst. inversion Fl as [|? ? Fx Fl']; subst. inversion Fy; subst. constructor; [constructor; [apply Sy; assumption|assumption]|constructor; assumption]. }
  induction 1 as [|x l m P IH|x y l|l m k P IH Q IH']; intros F a r K.
  - exact K.
  - inversion F; subst. cbn in *. apply bind_ok in K. destruct K as (b & E & K). rewrite E. cbn. auto.
  - inversion F as [|? ? Fy _]; subst. inversion Fy; subst. cbn in *. apply bind_ok in K. destruct K as (b & E & K). apply bind_ok in K. destruct K as (b' & E' & K).
    assert (G : (do b <- f a x ; f b y) = Ok b'). { apply H; [apply Sy, Sy; assumption|]. rewrite E. exact E'. }
    apply bind_ok in G. destruct G as (b2 & G1 & G2). rewrite G1. cbn. rewrite G2. exact K.
  - apply IH'; [exact (FP _ _ P F)|]. apply IH; assumption.
Qed.
Lemma fold_f2 {A B X} (f : A -> B -> result A X) (E : B -> B -> Prop) l l' : Forall2 E l l' ->
  (forall a x x', In x l -> E x x' -> f a x = f a x') -> forall a, fold_r f a l = fold_r f a l'.
Proof.
  induction 1 as [|x y l l' Exy F IH]; intros H a; [reflexivity|]. cbn. rewrite (H a x y (or_introl eq_refl) Exy). destruct (f a y); [|reflexivity].
  cbn. apply IH. intros. apply H; [right|]; assumption.
Qed.
Lemma sort_perm {A} (key : A -> string) l : Permutation (sort_key key l) l.
Proof.
  induction l as [|x l IH]; [constructor|]. cbn [sort_key fold_right]. fold (sort_key key l).
  apply perm_trans with (x :: sort_key key l); [|constructor; exact IH]. generalize (sort_key key l). clear. intros l.
  induction l as [|y l IH]; cbn; [apply Permutation_refl|]. destruct (String.compare (key x) (key y)); try apply Permutation_refl.
  eapply perm_trans; [apply perm_skip, IH|apply perm_swap].
Qed.

(** Results of expansion. *)
Inductive xsim : expanded -> expanded -> Prop :=
| XsNull : xsim XNull XNull
| XsObj x y : sim x y -> xsim (XObj x) (XObj y)
| XsArr l m : Forall2 sim l m -> xsim (XArr l) (XArr m).
Inductive rsim : expanded -> expanded -> Prop :=
| RsNull : rsim XNull XNull
| RsObj x y : sim x y -> rsim (XObj x) (XObj y)
| RsArr l m : reordered sim l m -> rsim (XArr l) (XArr m).
Lemma xsim_items x y : xsim x y -> Forall2 sim (items x) (items y).
Proof. destruct 1; cbn; [constructor|constructor; [assumption|constructor]|assumption]. Qed.
Lemma rsim_items x y : rsim x y -> reordered sim (items x) (items y).
Proof. destruct 1; cbn; [exists []; constructor|exists [y]; [apply Permutation_refl|constructor; [assumption|constructor]]|assumption]. Qed.
Lemma xsim_rsim x y : xsim x y -> rsim x y.
Proof. destruct 1; constructor; [assumption|apply reordered_of; assumption]. Qed.
Lemma sim_top x y : sim x y -> top_level x = top_level y.
Proof. intros ([_ S] & _). unfold top_level. destruct S; reflexivity. Qed.
Lemma is_some_both {A} (R : A -> A -> Prop) a b : both R a b -> is_some a = is_some b. Proof. destruct 1; reflexivity. Qed.
Lemma sim_list x y : sim x y -> is_list (snd x) = is_list (snd y).
Proof. intros ([_ S] & _). destruct S; reflexivity. Qed.
Lemma props_empty {A} (R : A -> A -> Prop) (a b : list (id * list A)) : maps R a b ->
  match a with [] => true | _ => false end = match b with [] => true | _ => false end.
Proof.
  intros H. destruct a as [|[k v] a], b as [|[k' v'] b]; try reflexivity; [specialize (H k')|specialize (H k)]; cbn in H.
  - rewrite (proj1 (reflect_iff _ _ (id_eqb_spec k' k')) eq_refl) in H. inversion H.
  - rewrite (proj1 (reflect_iff _ _ (id_eqb_spec k k)) eq_refl) in H. inversion H.
Qed.
Lemma nsim_empty n m : nsim n m -> n_empty n = n_empty m.
Proof.
  intros [H1 H2 H3 H4 H5 H6 _ _]. apply props_empty in H5. destruct n as [i ts g inc ps rs], m as [i' ts' g' inc' ps' rs']. unfold n_empty. cbn in *.
  destruct H2, H3, H4, H6, ps, ps'; try reflexivity; discriminate H5.
Qed.
Lemma nsim_graph n m : nsim n m -> is_graph n = is_graph m.
Proof.
  intros [H1 H2 H3 H4 H5 H6 _ _]. apply props_empty in H5. destruct n as [i ts g inc ps rs], m as [i' ts' g' inc' ps' rs']. cbn in *.
  destruct H2, H3, H4, H6, ps, ps'; try reflexivity; discriminate H5.
Qed.
Lemma sim_oid x y : sim x y -> o_id (snd x) = o_id (snd y).
Proof.
  intros ([_ S] & W & V). destruct S as [| n m S|]; try reflexivity. inversion W; inversion V; subst. destruct (same_nsim _ _ S) as [E _ _ _ _ _ _ _]; assumption.
Qed.
Lemma sim_graph x y : sim x y -> o_is_graph (snd x) = o_is_graph (snd y).
Proof.
  intros ([_ S] & W & V). destruct S as [| n m S|]; try reflexivity. inversion W; inversion V; subst. apply nsim_graph, same_nsim; assumption.
Qed.
Lemma as_nodes_sim e l m r : reordered sim l m -> as_nodes e l = Ok r -> exists r', as_nodes e m = Ok r' /\ reordered simn r r'.
Proof.
  intros H E.
  assert (Q : forall l, as_nodes e l = flat_r (fun x => match as_node x with Some n => Ok [n] | None => Err e end) l).
  { clear. induction l as [|x l IH]; [reflexivity|]. cbn. unfold as_nodes in IH. destruct (as_node x); [|reflexivity]. cbn. rewrite IH. reflexivity. }
  rewrite Q in E. rewrite Q. revert E. apply (flat_rel _ _ sim); [exact H|]. intros x y ys _ S E.
  unfold as_node in *. destruct x as [i x], y as [j y]. pose proof S as ([_ X] & _). cbn in *. destruct X as [|n n' X|]; try discriminate.
  injection E as <-. apply sim_nsim in S. destruct S as [-> S]. exists [(j, n')]. split; [reflexivity|]. apply reordered_of. constructor; [|constructor].
  split; [split; [reflexivity|apply nsim_same, S]|]. split; apply S.
Qed.

Section Order.
Variable io : iops.
Variable ld : loader.
Variables (fin rnd : list word -> N).
Variable pf : nat.
Variable o : xopts.
Variable base_url : option string.
Variable doc : json.
Variable c0 : actx.
Notation reached := (reached io ld pf base_url doc c0).
Hypothesis HC : forall c m, reached c -> part (JObj m) doc -> clear io o c m.
Hypothesis HJ : forall c, reached c -> no_json io o doc c.
Notation app_upd := (app_upd fin rnd).

Lemma clear_perm c m m' : reordered ent m m' -> clear io o c m -> clear io o c m'.
Proof.
  intros H [K1 K2 K3 K4]. pose proof (ents_keys _ _ H) as P.
  assert (I : forall k, In k (map fst m') -> In k (map fst m)) by (intros k; apply Permutation_in, Permutation_sym, P).
  constructor; eauto. exact (Permutation_NoDup P K1).
Qed.
Lemma sorted_ents m m' : reordered ent m m' -> reordered ent (entries_sorted o m) (entries_sorted o m').
Proof.
  intros H. unfold entries_sorted. destruct (xo_ordered o); [|exact H].
  apply (reordered_perm _ _ m'); [|apply Permutation_sym, sort_perm]. eapply reordered_perm_l; [exact H|apply Permutation_sym, sort_perm].
Qed.

(** *** Contexts *)
Lemma preliminary_same c m m' r : reordered ent m m' -> preliminary io o c m = Ok r -> preliminary io o c m' = Ok r.
Proof.
  intros [k P F] H. unfold preliminary in *.
  rewrite (fold_f2 _ ent _ _ F) in H by (intros a x y _ E; rewrite (ent_fst _ _ E); reflexivity).
  refine (fold_perm _ (fun _ _ => True) _ _ _ _ (Permutation_sym P) _ _ _ H); auto.
  - intros a x y q _ E. apply bind_ok in E. destruct E as (b & Eb & E). apply bind_ok in Eb. destruct Eb as (t & Et & Eb). injection Eb as <-.
    apply bind_ok in E. destruct E as (u & Eu & E). injection E as <-. rewrite Et, Eu. cbn. f_equal.
    destruct t as [[| |[]]|], u as [[| |[]]|]; reflexivity.
  - clear. induction k; constructor; auto. apply Forall_forall. auto.
Qed.
Lemma context_entry m m' : reordered ent m m' -> Permutation (get_all "@context" m) (get_all "@context" m').
Proof.
  intros [k P F]. unfold get_all. apply perm_trans with (map snd (filter (fun e => streq (fst e) "@context") k)); [|apply Permutation_map, perm_filter, Permutation_sym, P].
  clear P. induction F as [|x y l l' E F IH]; [constructor|]. cbn. rewrite <- (ent_fst _ _ E). destruct (streq_spec (fst x) "@context") as [X|N]; [|exact IH].
  cbn. destruct E as [_ [[_ ->]|[N _]]]; [constructor; exact IH|contradiction].
Qed.
Lemma context_unique m m' r : reordered ent m m' -> get_unique "@context" m = Ok r -> get_unique "@context" m' = Ok r.
Proof.
  intros H. apply context_entry in H. unfold get_unique. destruct (get_all "@context" m) as [|x [|y l]]; intros E; try discriminate.
  - apply Permutation_nil in H. rewrite H. exact E.
  - apply Permutation_length_1_inv in H. rewrite H. exact E.
Qed.
Lemma ents_length m m' : reordered ent m m' -> length m = length m'. Proof. apply reordered_length. Qed.
Lemma context_same c ap m m' fm r : reordered ent m m' -> element_context io ld pf o base_url c ap m fm = Ok r -> element_context io ld pf o base_url c ap m' fm = Ok r.
Proof.
  intros H E. unfold element_context in *. cbn zeta in *. apply bind_ok in E. destruct E as ([hv hi] & E1 & E). rewrite (preliminary_same _ _ _ _ H E1). cbn [bind].
  rewrite <- (ents_length _ _ H). apply bind_ok in E. destruct E as (c2 & E2 & E). rewrite E2. cbn [bind].
  apply bind_ok in E. destruct E as (lc & E3 & E). unfold map_err in E3. destruct (get_unique "@context" m) as [u|] eqn:U; [|discriminate]. injection E3 as ->.
  rewrite (context_unique _ _ _ H U). exact E.
Qed.

(** *** Expanded entries *)
Definition xent (e e' : xentry) : Prop := fst e = fst e' /\ shuffled (snd e) (snd e').
Definition apart (e e' : xentry) : Prop := forall k, ~ (snd (fst e) = TmKw k /\ snd (fst e') = TmKw k).
Lemma apart_sym e e' : apart e e' -> apart e' e. Proof. intros H k [A B]. apply (H k). auto. Qed.
Lemma entries_same c m m' es : reordered ent m m' -> expand_entries io o c m = Ok es ->
  exists es', expand_entries io o c m' = Ok es' /\ reordered xent es es'.
Proof.
  intros H. apply (flat_rel _ _ ent); [exact H|]. intros [k v] [k' v'] ys _ E X. pose proof (ent_snd _ _ E) as S. pose proof (ent_fst _ _ E) as K. cbn in *. subst k'.
  apply bind_ok in X. destruct X as (t & Et & X). injection X as <-. rewrite Et. cbn. eexists. split; [reflexivity|]. apply reordered_of.
  destruct t; constructor; [split; [reflexivity|exact S]|constructor].
Qed.
Lemma entries_from c m es : expand_entries io o c m = Ok es -> Forall (fun e => In (fst (fst e), snd e) m /\ xkey io o c (fst (fst e)) = Ok (Some (snd (fst e)))) es.
Proof.
  intros H. refine (flat_forall _ _ _ _ H _). intros [k v] ys I X. cbn in X. apply bind_ok in X. destruct X as (t & Et & X). injection X as <-.
  destruct t as [t|]; [|constructor]. repeat constructor; cbn; assumption.
Qed.
Lemma entries_apart c m es : clear io o c m -> expand_entries io o c m = Ok es -> ForallOrdPairs apart es.
Proof.
  intros [K1 K2 _ _] H.
  assert (G : forall l es, (forall k, In k (map fst l) -> In k (map fst m)) -> NoDup (map fst l) -> expand_entries io o c l = Ok es -> ForallOrdPairs apart es).
  { clear H es. induction l as [|[k v] l IH]; intros es Sub D H; cbn in H; [injection H as <-; constructor|].
    apply bind_ok in H. destruct H as (a & Ea & H). apply bind_ok in H. destruct H as (b & Eb & H). injection H as <-.
    apply bind_ok in Ea. destruct Ea as (t & Et & Ea). injection Ea as <-. cbn in D. inversion D as [|? ? NI D']; subst.
    assert (Fb : ForallOrdPairs apart b) by (apply IH; [intros; apply Sub; right; assumption|assumption|exact Eb]).
    destruct t as [t|]; [|exact Fb]. cbn. constructor; [|exact Fb]. apply Forall_forall. intros [[k' t'] v'] I w [A B]. cbn in A, B. subst t t'.
    destruct (Forall_in _ _ _ (entries_from _ _ _ Eb) I) as [J X]. cbn in J, X. apply (in_map fst) in J. cbn in J.
    apply NI. rewrite (K2 k k' w (Sub _ (or_introl eq_refl)) (Sub _ (or_intror J)) Et X). exact J. }
  apply (G m es); auto.
Qed.

Lemma last_unique k es e : ForallOrdPairs apart es -> In e es -> snd (fst e) = TmKw k -> last_entry k es = Some (snd e).
Proof.
  unfold last_entry. generalize (@None json). induction es as [|x es IH]; intros a F I K; [destruct I|]. inversion F as [|? ? Fx Fe]; subst. cbn. destruct I as [->|I].
  - rewrite K, (proj1 (reflect_iff _ _ (keyword_eqb_spec k k)) eq_refl).
    assert (G : forall es b, Forall (apart e) es -> fold_left (fun a e => match snd (fst e) with TmKw k' => if keyword_eqb k' k then Some (snd e) else a | _ => a end) es b = b).
    { clear -K. induction es as [|y es IH]; intros b F; [reflexivity|]. inversion F as [|? ? Fy Fe]; subst. cbn. rewrite IH by exact Fe.
      destruct (snd (fst y)) as [| |w] eqn:T; auto. destruct (keyword_eqb_spec w k) as [E|E]; [|reflexivity]. subst w. destruct (Fy k). auto. }
    apply G. exact Fx.
  - apply IH; auto.
Qed.
Lemma last_in k es v : last_entry k es = Some v -> exists e, In e es /\ snd e = v /\ snd (fst e) = TmKw k.
Proof.
  unfold last_entry. assert (G : forall a, fold_left (fun a e => match snd (fst e) with TmKw k' => if keyword_eqb k' k then Some (snd e) else a | _ => a end) es a = Some v ->
    a = Some v \/ exists e, In e es /\ snd e = v /\ snd (fst e) = TmKw k).
  { induction es as [|e es IH]; cbn; intros a H; [auto|]. destruct (IH _ H) as [E|(x & I & E)]; [|right; eauto].
    destruct (snd (fst e)) eqn:T; auto. destruct (keyword_eqb_spec k0 k) as [Q|Q]; auto. subst. injection E as E. right. exists e. auto. }
  intros H. destruct (G _ H) as [E|E]; [discriminate|exact E].
Qed.
Lemma last_same k es es' : ForallOrdPairs apart es -> ForallOrdPairs apart es' -> reordered xent es es' -> both shuffled (last_entry k es) (last_entry k es').
Proof.
  intros F F' H. destruct (last_entry k es) as [v|] eqn:L.
  - destruct (last_in _ _ _ L) as (e & I & <- & T). destruct (reordered_in _ _ _ _ H I) as (e' & I' & E & S). rewrite (last_unique k es' e' F' I') by congruence. constructor. exact S.
  - destruct (last_entry k es') as [v|] eqn:L'; [|constructor]. exfalso. destruct (last_in _ _ _ L') as (e & I & <- & T).
    pose proof (reordered_sym xent (fun y x => xent x y) _ _ (fun _ _ _ X => X) H) as H'. destruct (reordered_in _ _ _ _ H' I) as (e' & I' & E & S).
    rewrite (last_unique k es e' F I') in L by congruence. discriminate.
Qed.
Lemma list_index_same es es' i : ForallOrdPairs apart es' -> reordered xent es es' -> list_index es = Ok i -> list_index es' = Ok i.
Proof.
  intros F [k P E] H. unfold list_index in *.
  rewrite (fold_f2 _ xent _ _ E) in H by (intros a x y _ [X S]; rewrite X, (shuffled_str _ _ S); reflexivity).
  assert (Fk : ForallOrdPairs apart k).
  { clear -F P. revert F. induction P as [|x l m P IH|x y l|l m k P IH Q IH']; intros F; auto.
    - inversion F as [|? ? Fx Fl]; subst. constructor; [|auto]. apply Forall_forall. intros y I. apply (Forall_in _ _ _ Fx). eapply Permutation_in; [apply Permutation_sym, P|exact I].
    - inversion F as [|? ? Fy Fl]; subst. inversion Fl as [|? ? Fx Fl']; subst. inversion Fy; subst. constructor; [constructor; [apply apart_sym; assumption|assumption]|constructor; assumption]. }
  refine (fold_perm _ apart apart_sym _ _ _ (Permutation_sym P) Fk _ _ H). clear. intros a x y r A E. apply bind_ok in E. destruct E as (b & Eb & E).
  destruct (snd (fst x)) as [| |kx] eqn:X; try discriminate. destruct (snd (fst y)) as [| |ky] eqn:Y; try discriminate.
  destruct kx; try discriminate; destruct ky; try discriminate; try (destruct (A KIndex); auto; fail); try (destruct (A KList); auto; fail).
  - destruct (as_str (snd x)); [|discriminate]. injection Eb as <-. injection E as <-. reflexivity.
  - injection Eb as <-. destruct (as_str (snd y)); [|discriminate]. injection E as <-. reflexivity.
Qed.
Lemma set_check_same es es' i : reordered xent es es' -> set_check es = Ok i -> set_check es' = Ok i.
Proof.
  intros [k P E] H. unfold set_check in *.
  rewrite (fold_f2 _ xent _ _ E) in H by (intros a x y _ [X S]; rewrite X; reflexivity).
  refine (fold_perm _ (fun _ _ => True) _ _ _ _ (Permutation_sym P) _ _ _ H); auto.
  - clear. intros a x y r _ E. apply bind_ok in E. destruct E as (b & Eb & E).
    destruct (snd (fst x)) as [| |kx]; try discriminate. destruct (snd (fst y)) as [| |ky]; try discriminate.
    destruct kx; try discriminate; destruct ky; try discriminate; injection Eb as <-; injection E as <-; reflexivity.
  - clear. induction k; constructor; auto. apply Forall_forall. auto.
Qed.

(** *** Types *)
Lemma type_entries_same c m m' ts : clear io o c m -> reordered ent m m' -> type_entries io o c m = Ok ts ->
  exists ts', type_entries io o c m' = Ok ts' /\ Forall2 ent ts ts' /\ (forall e, In e ts -> In e m).
Proof.
  intros CL H E. unfold type_entries in *. apply bind_ok in E. destruct E as (l & El & E). injection E as <-.
  assert (Fl : Forall (fun e => In e m /\ xkey io o c (fst e) = Ok (Some (TmKw KType))) l).
  { refine (flat_forall _ _ _ _ El _). intros e ys I X. apply bind_ok in X. destruct X as (t & Et & X). injection X as <-. destruct t as [[| |[]]|]; repeat constructor; assumption. }
  assert (L1 : length l <= 1).
  { assert (D : NoDup (map fst l)).
    { destruct CL as [K1 _ _ _]. clear -K1 El. revert l El. induction m as [|e m IH]; intros l H; cbn in H; [injection H as <-; constructor|].
      apply bind_ok in H. destruct H as (a & Ea & H). apply bind_ok in H. destruct H as (b & Eb & H). injection H as <-. cbn in K1. inversion K1 as [|? ? NI D]; subst.
      apply bind_ok in Ea. destruct Ea as (t & Et & Ea). injection Ea as <-. specialize (IH D _ Eb).
      assert (Q : NoDup (map fst (e :: b))).
      { constructor; [|exact IH]. intros I. apply NI. apply in_map_iff in I. destruct I as (z & Ez & Iz). rewrite <- Ez. apply in_map.
        assert (Fb : Forall (fun e => In e m) b).
        { refine (flat_forall _ _ _ _ Eb _). intros x ys J X. apply bind_ok in X. destruct X as (u & _ & X). injection X as <-. destruct u as [[| |[]]|]; repeat constructor; assumption. }
        exact (Forall_in _ _ _ Fb Iz). }
      destruct t as [[| |[]]|]; try exact IH; exact Q. }
    destruct l as [|a [|b l]]; cbn; try lia. exfalso. inversion Fl as [|? ? [Ia Xa] Fl']; subst. inversion Fl' as [|? ? [Ib Xb] _]; subst.
    cbn in D. inversion D as [|? ? NI _]; subst. apply NI. left. symmetry. apply (cl_kw _ _ _ _ CL (fst a) (fst b) KType); auto; apply in_map; assumption. }
  assert (Q : exists l', flat_r (fun e => do t <- xkey io o c (fst e) ; Ok (match t with Some (TmKw KType) => [e] | _ => [] end)) m' = Ok l' /\ reordered ent l l').
  { revert El. apply (flat_rel _ _ ent); [exact H|]. intros x y ys _ E X. rewrite <- (ent_fst _ _ E). apply bind_ok in X. destruct X as (t & Et & X). injection X as <-. rewrite Et. cbn. eexists. split; [reflexivity|].
    apply reordered_of. destruct t as [[| |[]]|]; first [apply Forall2_nil|apply Forall2_cons; [exact E|apply Forall2_nil]]. }
  destruct Q as (l' & El' & Rl). rewrite El'. cbn. exists (sort_key fst l'). split; [reflexivity|].
  pose proof (reordered_length _ _ _ Rl) as Ll. destruct l as [|a [|b l]]; cbn in L1; try lia.
  - destruct l'; [|discriminate]. split; [constructor|intros ? []].
  - destruct l' as [|a' [|]]; try discriminate. destruct Rl as [k P F]. apply Permutation_length_1_inv in P. subst k. cbn. split; [exact F|].
    intros e [<-|[]]. inversion Fl; subst. tauto.
Qed.
Lemma strings_same v v' : shuffled v v' ->
  flat_map (fun t => match as_str t with Some s => [s] | None => [] end) (force_array v) = flat_map (fun t => match as_str t with Some s => [s] | None => [] end) (force_array v').
Proof.
  intros H. apply shuffled_force in H. induction H as [|x y l l' E F IH]; [reflexivity|]. cbn. rewrite (shuffled_str _ _ E), IH. reflexivity.
Qed.
Lemma type_scoped_same tsc ts ts' : Forall2 ent ts ts' -> type_scoped io ld pf o tsc ts = type_scoped io ld pf o tsc ts'.
Proof.
  intros F. unfold type_scoped. apply (fold_f2 _ ent _ _ F). intros a x y _ E. rewrite (strings_same _ _ (ent_snd _ _ E)). reflexivity.
Qed.
Lemma input_type_same c ts ts' : Forall2 ent ts ts' -> input_type io o c ts = input_type io o c ts'.
Proof.
  intros F. unfold input_type. destruct F as [|[k v] [k' v'] l l' E F]; [reflexivity|]. apply ent_snd in E. cbn in E. apply shuffled_force in E.
  assert (R : Forall2 shuffled (rev (force_array v)) (rev (force_array v'))).
  { induction E; cbn; [constructor|]. apply Forall2_app; [assumption|repeat constructor; assumption]. }
  destruct R as [|x y a b S _]; [reflexivity|]. destruct S; reflexivity.
Qed.

(** *** Values *)
Lemma value_fold_same tsc es es' s r : ForallOrdPairs apart es' -> reordered xent es es' -> fold_r (value_step io o tsc) s es = Ok r -> fold_r (value_step io o tsc) s es' = Ok r.
Proof.
  intros F [k P E] H.
  rewrite (fold_f2 _ xent _ _ E) in H.
  2: { intros a [[kx tx] vx] [[ky ty] vy] _ [X S]. cbn in X, S. injection X as -> ->. unfold value_step. rewrite (shuffled_str _ _ S). reflexivity. }
  assert (Fk : ForallOrdPairs apart k).
  { clear -F P. revert F. induction P as [|x l m P IH|x y l|l m k P IH Q IH']; intros F; auto.
    - inversion F as [|? ? Fx Fl]; subst. constructor; [|auto]. apply Forall_forall. intros y I. apply (Forall_in _ _ _ Fx). eapply Permutation_in; [apply Permutation_sym, P|exact I].
    - inversion F as [|? ? Fy Fl]; subst. inversion Fl as [|? ? Fx Fl']; subst. inversion Fy; subst. constructor; [constructor; [apply apart_sym; assumption|assumption]|constructor; assumption]. }
  refine (fold_perm _ apart apart_sym _ _ _ (Permutation_sym P) Fk _ _ H). clear. intros a [[kx tx] x] [[ky ty] y] r A E. apply bind_ok in E. destruct E as (b & Eb & E).
  unfold value_step in *. destruct tx as [| |wx]; try discriminate. destruct ty as [| |wy]; try discriminate.
  destruct wx; try discriminate; destruct wy; try discriminate; try (match goal with A : apart (_, TmKw ?w, _) _ |- _ => destruct (A w); auto; fail end);
  repeat match goal with
  | H : context [match as_str ?v with _ => _ end] |- _ => destruct (as_str v); [|discriminate]
  | H : context [match dir_of_str ?v with _ => _ end] |- _ => destruct (dir_of_str v); [|discriminate]
  | H : bind ?e _ = Ok _ |- _ => let t := fresh in let Q := fresh in apply bind_ok in H; destruct H as (t & Q & H); rewrite ?Q; cbn [bind]
  | H : match ?t with _ => _ end = Ok _ |- _ => destruct t; try discriminate
  | H : Ok _ = Ok _ |- _ => injection H as <-
  end; cbn; try reflexivity; match goal with |- context [streq ?s "@none"] => destruct (streq s "@none") end; reflexivity.
Qed.

Lemma value_not_json tsc es s r : reached tsc -> Forall (fun e => part (snd e) doc) es -> vs_json s = false -> fold_r (value_step io o tsc) s es = Ok r -> vs_json r = false.
Proof.
  intros T F S H. refine (fold_inv_r _ (fun s => vs_json s = false) _ _ _ H S _). intros a [[k t] v] a' I Ha E. unfold value_step in E.
  destruct t as [| |w]; try discriminate. destruct w; try discriminate; try (injection E as <-; exact Ha).
  - destruct (as_str v); [|discriminate]. destruct (dir_of_str s0); [|discriminate]. injection E as <-. exact Ha.
  - destruct (as_str v); [|discriminate]. injection E as <-. exact Ha.
  - destruct (as_str v) as [l|]; [|discriminate]. injection E as <-. destruct (streq l "@none"); exact Ha.
  - destruct (as_str v) as [l|] eqn:V; [|discriminate]. apply bind_ok in E. destruct E as (u & X & E). unfold map_err in X.
    destruct (xiri io tsc l true (Some (xo_vocab o))) eqn:X'; [|discriminate]. injection X as ->.
    destruct u as [[|[i|i|i]|w]|]; try discriminate.
    + injection E as <-. reflexivity.
    + destruct w; try discriminate. exfalso. apply (proj2 (HJ _ T) l true); [|exact X']. pose proof (Forall_in _ _ _ F I) as P. cbn in P.
      destruct v; try discriminate. injection V as ->. exact P.
Qed.
Lemma value_same it tsc es es' v v' r : reached tsc -> Forall (fun e => part (snd e) doc) es -> it <> Some (TmKw KJson) ->
  ForallOrdPairs apart es' -> reordered xent es es' -> shuffled v v' -> expand_value io o it tsc es v = Ok r ->
  expand_value io o it tsc es' v' = Ok r /\ (forall x, r = Some x -> wf (snd x)).
Proof.
  intros T P J A R S H. unfold expand_value in *. cbn zeta in *. apply bind_ok in H. destruct H as (s & E & H).
  rewrite (value_fold_same _ _ _ _ _ A R E). cbn [bind].
  assert (Q : vs_json s = false).
  { refine (value_not_json _ _ _ _ T P _ E). cbn. destruct it as [[| |[]]|]; try reflexivity. contradiction. }
  rewrite Q in *. destruct S; try discriminate; (split; [exact H|]); intros x Ex; rewrite Ex in H; clear Ex; try discriminate H;
    repeat match type of H with context [match ?b with _ => _ end] => destruct b; try discriminate H end; injection H as <-; constructor.
Qed.
Lemma new_wf i : wf_node (node_new i). Proof. constructor; constructor. Qed.
Lemma literal_wf c ap v x : expand_literal io o c ap v = Ok x -> wf (snd x).
Proof.
  intros H. unfold expand_literal in H. cbn zeta in H.
  repeat match type of H with context [match ?b with _ => _ end] => destruct b; try discriminate H end; try (injection H as <-; constructor; apply new_wf);
    try (injection H as <-; constructor); apply bind_ok in H; destruct H as (t & _ & H); injection H as <-; constructor; apply new_wf.
Qed.

(** *** Entries *)
Section Rec.
Variable rec : actx -> option string -> json -> bool -> result expanded xerr.
Hypothesis HR : forall c ap j j' fm x, reached c -> part j doc -> shuffled j j' -> rec c ap j fm = Ok x -> exists x', rec c ap j' fm = Ok x' /\ xsim x x'.

Definition types_of (tsc : actx) (v : json) : result (list id) xerr :=
  flat_r (fun t =>
    match as_str t with
    | Some t =>
        do t <- map_err (fun _ => XForbiddenVocab) (xiri io tsc t true (Some (xo_vocab o))) ;
        match t with
        | Some t => match id_of_term t with
                    | Some i => do keep <- invalid_policy o i XInvalidTypeValue ; Ok (if keep then [i] else [])
                    | None => Err XInvalidTypeValue
                    end
        | None => Ok []
        end
    | None => Err XInvalidTypeValue
    end) (force_array v).
Lemma types_upds tsc v n : expand_types io o tsc v n = do ts <- types_of tsc v ; Ok (add_types ts n).
Proof.
  unfold expand_types, types_of. revert n. induction (force_array v) as [|t l IH]; intros n; [reflexivity|]. cbn [fold_r flat_r].
  destruct (as_str t) as [s|]; [|reflexivity]. destruct (map_err _ (xiri io tsc s true (Some (xo_vocab o)))) as [[u|]|]; cbn [bind]; try reflexivity.
  - destruct (id_of_term u) as [i|]; [|reflexivity]. destruct (invalid_policy o i XInvalidTypeValue) as [b|]; [|reflexivity]. cbn [bind]. rewrite IH.
    destruct (flat_r _ l) as [ts|]; [|reflexivity]. cbn. destruct b; reflexivity.
  - rewrite IH. destruct (flat_r _ l); reflexivity.
Qed.
Lemma types_of_same tsc v v' : shuffled v v' -> types_of tsc v = types_of tsc v'.
Proof.
  intros H. apply shuffled_force in H. unfold types_of. induction H as [|x y l l' E F IH]; [reflexivity|]. cbn [flat_r]. rewrite (shuffled_str _ _ E), IH. reflexivity.
Qed.
Definition revterm (c : actx) (k : string) : bool := match prop_def c (Some k) with Some d => nd_reverse d | None => false end.
Definition reverse_upds (c : actx) (e : string * json) : result (list upd) xerr :=
  let '(k, v) := e in
  do t <- xkey io o c k ;
  match t with
  | Some (TmKw _) => Err XInvalidReversePropertyMap
  | Some (TmId p) =>
      if id_has_colon p then
        do keep <- invalid_policy o p (XKeyExpansionFailed k) ;
        if negb keep then Ok []
        else
          do x <- rec c (Some k) v false ;
          if revterm c k then Ok [UProp p (items x)]
          else do l <- as_nodes XInvalidReversePropertyValue (items x) ; Ok [URev p l]
      else if match xo_invalid o with AReject => true | _ => false end || negb (xo_allow_undefined o)
           then Err (XKeyExpansionFailed k) else Ok []
  | _ => if match xo_invalid o with AReject => true | _ => false end || negb (xo_allow_undefined o)
         then Err (XKeyExpansionFailed k) else Ok []
  end.
Lemma on_node_same s : on_node (fun _ => snd (fst s)) s = s. Proof. destruct s as [[i n] f]. reflexivity. Qed.
Lemma reverse_entry_upds c s e : (do n <- reverse_entry io o rec c (snd (fst s)) e ; Ok (on_node (fun _ => n) s)) = do us <- reverse_upds c e ; Ok (fold_left app_upd us s).
Proof.
  destruct e as [k v]. unfold reverse_entry, reverse_upds, revterm. destruct s as [[i n] f]. cbn [fst snd].
  destruct (xkey io o c k) as [[[|p|w]|]|]; cbn [bind]; try reflexivity; try (destruct (_ || _); reflexivity).
  destruct (id_has_colon p); [|destruct (_ || _); reflexivity]. destruct (invalid_policy o p (XKeyExpansionFailed k)) as [[]|]; cbn [bind negb]; try reflexivity.
  destruct (rec c (Some k) v false) as [x|]; cbn [bind]; [|reflexivity].
  destruct (match prop_def c (Some k) with Some d => nd_reverse d | None => false end); [reflexivity|]. destruct (as_nodes _ (items x)); reflexivity.
Qed.
Lemma reverse_fold c l : forall s, (do n <- fold_r (reverse_entry io o rec c) (snd (fst s)) l ; Ok (on_node (fun _ => n) s)) = do us <- flat_r (reverse_upds c) l ; Ok (fold_left app_upd us s).
Proof.
  induction l as [|e l IH]; intros s; [cbn; rewrite on_node_same; reflexivity|]. cbn [fold_r flat_r]. pose proof (reverse_entry_upds c s e) as E.
  destruct (reverse_entry io o rec c (snd (fst s)) e) as [n1|x] eqn:E1; destruct (reverse_upds c e) as [us|y] eqn:E2; cbn [bind] in *; try discriminate; [|congruence].
  injection E as E.
  transitivity (do us' <- flat_r (reverse_upds c) l ; Ok (fold_left app_upd us' (fold_left app_upd us s))).
  - rewrite <- IH, <- E. cbn [on_node fst snd]. reflexivity.
  - destruct (flat_r (reverse_upds c) l) as [vs|]; cbn [bind]; [rewrite fold_left_app|]; reflexivity.
Qed.
Definition property_upds (c : actx) (key : string) (p : id) (v : json) : result (list upd) xerr :=
  if id_has_colon p then
    do keep <- invalid_policy o p (XKeyExpansionFailed (id_str p)) ;
    if negb keep then Ok []
    else
      do x <- expand_property io ld fin rnd pf o rec c key v ;
      let d := prop_def c (Some key) in
      match wrap_graph fin rnd d (wrap_list d x) with
      | XNull => Ok []
      | x => if revterm c key then do l <- as_nodes XInvalidReversePropertyValue (items x) ; Ok [URev p l] else Ok [UProp p (items x)]
      end
  else
    do _ <- invalid_policy o p (XKeyExpansionFailed (id_str p)) ;
    if xo_allow_undefined o then Ok [] else Err (XKeyExpansionFailed (id_str p)).
Lemma property_entry_upds c key p v s : (do n <- property_entry io ld fin rnd pf o rec c key p v (snd (fst s)) ; Ok (on_node (fun _ => n) s)) =
  do us <- property_upds c key p v ; Ok (fold_left app_upd us s).
Proof.
  unfold property_entry, property_upds, store, revterm. destruct s as [[i n] f]. cbn [fst snd]. destruct (id_has_colon p).
  - destruct (invalid_policy o p _) as [[]|]; cbn [bind negb]; try reflexivity. destruct (expand_property _ _ _ _ _ _ _ _ _ _) as [x|]; cbn [bind]; [|reflexivity]. cbn zeta.
    destruct (wrap_graph fin rnd _ _) as [|y|l]; [reflexivity| |]; (destruct (match prop_def c (Some key) with Some d => nd_reverse d | None => false end); [|reflexivity]);
      destruct (as_nodes _ _); reflexivity.
  - destruct (invalid_policy o p _) as [b|]; cbn [bind]; [|reflexivity]. destruct (xo_allow_undefined o); reflexivity.
Qed.
Definition entry_upds (ap : option string) (c tsc : actx) (e : xentry) : result (list upd) xerr :=
  let '(key, t, v) := e in
  match t with
  | TmNull | TmKw KContext => Ok []
  | TmId p => property_upds c key p v
  | TmKw k =>
      if ap_is ap KReverse then Err XInvalidReversePropertyMap
      else match k with
      | KId => match as_str v with
               | Some i => do t <- map_err (fun _ => XForbiddenVocab) (xiri io c i true None) ;
                           Ok [UId (match t with Some t => node_id_of_term t | None => None end)]
               | None => Err XInvalidIdValue
               end
      | KType => do ts <- types_of tsc v ; Ok [UTypes ts]
      | KGraph => do x <- rec c (Some "@graph") v false ; Ok [UGraph (oset fin rnd (filter top_level (items x)))]
      | KIncluded =>
          match xo_mode o with
          | JsonLd10 => Ok []
          | JsonLd11 => do x <- rec c (Some "@included") v false ;
                        do l <- as_nodes XInvalidIncludedValue (items x) ; Ok [UInc l]
          end
      | KLanguage | KDirection => Ok [UFlag]
      | KIndex => match as_str v with Some i => Ok [UIndex i] | None => Err XInvalidIndexValue end
      | KReverse => match v with JObj m => flat_r (reverse_upds c) (entries_sorted o m) | _ => Err XInvalidReverseValue end
      | KNest | KValue => Err XInvalidNestValue
      | _ => Ok []
      end
  end.
Definition collides (n : node) (t : term) : bool :=
  match t with
  | TmKw k => (match xo_mode o with JsonLd10 => true | JsonLd11 => negb (keyword_eqb k KIncluded) && negb (keyword_eqb k KType) end) && has_key n k
  | _ => false
  end.
Lemma entry_eq self ap c tsc s e : snd (fst e) <> TmKw KNest -> collides (snd (fst s)) (snd (fst e)) = false ->
  node_entry io ld fin rnd pf o rec self ap c tsc s e = do us <- entry_upds ap c tsc e ; Ok (fold_left app_upd us s).
Proof.
  destruct e as [[key t] v]. cbn [fst snd]. intros N Q. unfold node_entry, entry_upds. destruct t as [|p|k]; [reflexivity|apply property_entry_upds|].
  destruct k; try reflexivity; unfold keyword_entry; cbn zeta; (destruct (ap_is ap KReverse); [reflexivity|]); unfold collides in Q; (match goal with |- (if ?b then _ else _) = _ => replace b with false by (symmetry; exact Q) end); try contradiction; try reflexivity.
  - destruct (rec c (Some "@graph") v false); reflexivity.
  - destruct (as_str v); [|reflexivity]. destruct (map_err _ _); reflexivity.
  - destruct (xo_mode o); [reflexivity|]. destruct (rec c (Some "@included") v false); [|reflexivity]. cbn. destruct (as_nodes _ _); reflexivity.
  - destruct (as_str v); reflexivity.
  - destruct v; try reflexivity. apply reverse_fold.
  - rewrite types_upds. destruct (types_of tsc v); reflexivity.
Qed.
Lemma entry_collides self ap c tsc s e s' : node_entry io ld fin rnd pf o rec self ap c tsc s e = Ok s' -> collides (snd (fst s)) (snd (fst e)) = false.
Proof.
  destruct e as [[key t] v]. cbn [fst snd]. unfold node_entry. destruct t as [|p|k]; try reflexivity. unfold keyword_entry. cbn zeta. intros H.
  destruct (collides (snd (fst s)) (TmKw k)) eqn:Q; [|reflexivity]. unfold collides in Q.
  destruct k; try (destruct (ap_is ap KReverse); [discriminate|]; match type of H with (if ?b then _ else _) = _ => replace b with true in H by (symmetry; exact Q) end; discriminate).
  cbn in Q. destruct (xo_mode o); discriminate.
Qed.

(** Congruence of the updates. *)
Lemma reverse_upds_same c e e' us : reached c -> part (snd e) doc -> ent e e' -> reverse_upds c e = Ok us ->
  exists us', reverse_upds c e' = Ok us' /\ Forall2 usim us us'.
Proof.
  intros C P E H. pose proof (ent_fst _ _ E) as K. pose proof (ent_snd _ _ E) as S. destruct e as [k v], e' as [k' v']. cbn [fst snd] in *. subst k'. unfold reverse_upds in *.
  apply bind_ok in H. destruct H as (t & Et & H). rewrite Et. cbn [bind].
  destruct t as [[|p|w]|]; try discriminate; try (destruct (_ || _); [discriminate|]; injection H as <-; exists []; split; [reflexivity|constructor]).
  destruct (id_has_colon p); [|destruct (_ || _); [discriminate|]; injection H as <-; exists []; split; [reflexivity|constructor]].
  apply bind_ok in H. destruct H as (b & Eb & H). rewrite Eb. cbn [bind]. destruct b; cbn [negb] in *; [|injection H as <-; exists []; split; [reflexivity|constructor]].
  apply bind_ok in H. destruct H as (x & Ex & H). destruct (HR _ _ _ _ _ _ C P S Ex) as (x' & Ex' & X). rewrite Ex'. cbn [bind]. apply xsim_items, reordered_of in X.
  destruct (revterm c k); [injection H as <-; eexists; split; [reflexivity|constructor; [constructor; exact X|constructor]]|].
  apply bind_ok in H. destruct H as (l & El & H). injection H as <-. destruct (as_nodes_sim _ _ _ _ X El) as (l' & El' & L). rewrite El'. cbn [bind].
  eexists. split; [reflexivity|]. constructor; [constructor; exact L|constructor].
Qed.
Lemma language_map_same c d m m' l : reordered ent m m' -> expand_language_map io o c d m = Ok l -> exists l', expand_language_map io o c d m' = Ok l' /\ reordered sim l l'.
Proof.
  intros H. apply (flat_rel _ _ ent); [apply sorted_ents, H|]. intros e e' ys _ E X.
  enough (Q : exists ys', flat_r (fun item => match item with JNull => Ok [] | JStr s =>
          do t <- xkey io o c (fst e') ; let l := match t with Some (TmKw KNone) => None | _ => Some (fst e') end in Ok [(None, OVal (string_value s l (dir_for c d)))]
          | _ => Err XInvalidLanguageMapValue end) (force_array (snd e')) = Ok ys' /\ Forall2 sim ys ys').
  { destruct Q as (ys' & Q & S). exists ys'. split; [exact Q|apply reordered_of, S]. }
  revert X. apply (flat_f2 _ _ shuffled); [apply shuffled_force, (ent_snd _ _ E)|]. intros x y zs _ S Z. rewrite <- (ent_fst _ _ E).
  destruct S; try discriminate.
  - injection Z as <-. exists []. split; [reflexivity|constructor].
  - exists zs. split; [exact Z|]. apply bind_ok in Z. destruct Z as (t & _ & Z). injection Z as <-. constructor; [|constructor]. apply sim_refl. constructor.
Qed.
Lemma graph_of_sim x y : sim x y -> sim (graph_of fin rnd x) (graph_of fin rnd y).
Proof.
  intros S. unfold graph_of. apply nsim_sim, graph_sim; [apply nsim_refl, new_wf|apply reordered_of; constructor; [exact S|constructor]|repeat constructor|repeat constructor].
Qed.
Lemma index_item_same c cont ik index x item item' r : sim item item' -> index_item io fin rnd o c cont ik index x item = Ok r ->
  exists r', index_item io fin rnd o c cont ik index x item' = Ok r' /\ both sim r r'.
Proof.
  intros S H. unfold index_item in *. cbn zeta in *. rewrite <- (sim_graph _ _ S).
  set (b := cont CKGraph && negb (o_is_graph (snd item))) in *.
  set (it := if b then graph_of fin rnd item else item) in *. set (it' := if b then graph_of fin rnd item' else item').
  assert (S' : sim it it') by (unfold it, it'; destruct b; [apply graph_of_sim|]; exact S). clearbody it it'. clear b S item item'.
  destruct x as [x|]; [|injection H as <-; eexists; split; [reflexivity|constructor; exact S']].
  destruct it as [i it], it' as [i' it']. pose proof (sim_oid _ _ S') as Oid. pose proof S' as ([EI SO] & Wl & Wr). cbn [fst snd] in *. subst i'.
  destruct (cont CKIndex && negb (streq ik "@index")).
  { apply bind_ok in H. destruct H as (re & Er & H). rewrite Er. cbn [bind]. apply bind_ok in H. destruct H as (k & Ek & H). rewrite Ek. cbn [bind].
    destruct k as [[|p|w]|]; try (injection H as <-; eexists; split; [reflexivity|constructor]).
    destruct SO as [|n n' SN|]; try discriminate. injection H as <-. eexists. split; [reflexivity|]. constructor. apply nsim_sim, prop_sim; [apply (sim_nsim _ _ _ _ S')|].
    unfold map_err in Er. destruct (expand_literal io o c (Some ik) (LStr index)) as [re'|] eqn:El; [|discriminate]. injection Er as ->.
    apply sims_refl. constructor; [exact (literal_wf _ _ _ _ El)|constructor]. }
  destruct (cont CKIndex && negb (is_some i)).
  { injection H as <-. eexists. split; [reflexivity|]. constructor. split; [split; [reflexivity|exact SO]|split; assumption]. }
  rewrite <- Oid. destruct (cont CKId && negb (is_some (o_id it))).
  { destruct SO as [v w SV|n n' SN|]; try (injection H as <-; eexists; split; [reflexivity|constructor; exact S']).
    apply bind_ok in H. destruct H as (t & Et & H). injection H as <-. rewrite Et. cbn [bind]. eexists. split; [reflexivity|]. constructor. apply nsim_sim, id_sim. apply (sim_nsim _ _ _ _ S'). }
  destruct (cont CKType); [|injection H as <-; eexists; split; [reflexivity|constructor; exact S']].
  destruct (id_of_term x) as [t|]; [|discriminate]. injection H as <-. eexists. split; [reflexivity|]. constructor.
  destruct SO as [v w SV|n n' SN|]; try exact S'. apply nsim_sim, unshift_sim. apply (sim_nsim _ _ _ _ S').
Qed.
Lemma index_map_same c key m m' l : reached c -> part (JObj m) doc -> reordered ent m m' ->
  expand_index_map io ld fin rnd pf o rec c (prop_def c (Some key)) key m = Ok l ->
  exists l', expand_index_map io ld fin rnd pf o rec c (prop_def c (Some key)) key m' = Ok l' /\ reordered sim l l'.
Proof.
  intros C P H. apply (flat_rel _ _ ent); [apply sorted_ents, H|]. intros [index v] [index' v'] ys I E X. apply entries_in in I. cbn zeta in X.
  pose proof (ent_fst _ _ E) as K. pose proof (ent_snd _ _ E) as S. cbn [fst snd] in K, S. subst index'. cbn zeta.
  set (cont := has_container (prop_def c (Some key))) in *.
  set (mc := if cont CKType || cont CKId then match ac_prev c with Some p => p | None => c end else c) in *.
  assert (Cm : reached mc).
  { unfold mc. destruct (_ || _); [|exact C]. destruct (ac_prev c) as [p|] eqn:Pv; [exact (RcPrevious _ _ _ _ _ _ _ _ C Pv)|exact C]. }
  clearbody mc. apply bind_ok in X. destruct X as (mc' & E1 & X). rewrite E1. cbn [bind].
  assert (Cm' : reached mc').
  { destruct (cont CKType); [|injection E1 as <-; exact Cm]. destruct (prop_def mc (Some index)) as [d|] eqn:D; [|injection E1 as <-; exact Cm].
    destruct (nd_context d) as [lc|] eqn:N; [|injection E1 as <-; exact Cm]. exact (scoped_reached _ _ _ _ _ _ _ _ _ _ _ _ _ Cm Cm D N E1). }
  apply bind_ok in X. destruct X as (x & E2 & X). rewrite E2. cbn [bind]. apply bind_ok in X. destruct X as (ev & E3 & X).
  destruct (HR _ _ _ _ _ _ Cm' (part_field _ _ _ _ P I) S E3) as (ev' & E3' & Sv). rewrite E3'. cbn [bind].
  match type of X with flat_r ?f _ = _ => enough (Q : exists ys', flat_r f (items ev') = Ok ys' /\ Forall2 sim ys ys') end.
  { destruct Q as (ys' & Q & T). exists ys'. split; [exact Q|apply reordered_of, T]. }
  revert X. apply (flat_f2 _ _ sim); [apply xsim_items, Sv|]. intros a b zs _ Sab Z. apply bind_ok in Z. destruct Z as (r & Er & Z). injection Z as <-.
  destruct (index_item_same _ _ _ _ _ _ _ _ Sab Er) as (r' & Er' & Br). rewrite Er'. cbn [bind]. eexists. split; [reflexivity|]. destruct Br; constructor; [assumption|constructor].
Qed.
Lemma json_typ c k d : reached c -> prop_def c (Some k) = Some d -> nd_typ d <> Some TyJson.
Proof. intros C D. destruct (prop_get _ _ _ D) as (k' & _ & G). exact (proj1 (HJ _ C) _ _ G). Qed.
(** A list container is not a map. *)
Lemma list_alone d : has_container d CKList = true -> has_container d CKLanguage = false /\ has_container d CKIndex = false /\ has_container d CKType = false /\ has_container d CKId = false.
Proof. destruct d as [d|]; [|discriminate]. cbn. destruct (nd_container d); try discriminate. repeat split. Qed.
Lemma property_same c key v v' x : reached c -> part v doc -> shuffled v v' -> expand_property io ld fin rnd pf o rec c key v = Ok x ->
  exists x', expand_property io ld fin rnd pf o rec c key v' = Ok x' /\ rsim x x' /\ (has_container (prop_def c (Some key)) CKList = true -> xsim x x').
Proof.
  intros C P S H. unfold expand_property in *. cbn zeta in *.
  assert (J : match prop_def c (Some key) with Some d => match nd_typ d with Some TyJson => true | _ => false end | None => false end = false).
  { destruct (prop_def c (Some key)) as [d|] eqn:D; [|reflexivity]. pose proof (json_typ _ _ _ C D) as N. destruct (nd_typ d) as [[]|]; try reflexivity. contradiction. }
  rewrite J in *.
  assert (G : rec c (Some key) v false = Ok x -> exists x', rec c (Some key) v' false = Ok x' /\ rsim x x' /\ (has_container (prop_def c (Some key)) CKList = true -> xsim x x')).
  { intros E. destruct (HR _ _ _ _ _ _ C P S E) as (x' & E' & X). exists x'. split; [exact E'|]. split; [apply xsim_rsim, X|auto]. }
  destruct S as [| | | | |m m' R]; try exact (G H). fold ent in R.
  destruct (has_container (prop_def c (Some key)) CKLanguage) eqn:CL.
  { apply bind_ok in H. destruct H as (l & El & H). injection H as <-. destruct (language_map_same _ _ _ _ _ R El) as (l' & El' & Rl). rewrite El'. cbn [bind].
    eexists. split; [reflexivity|]. split; [constructor; exact Rl|]. intros L. apply list_alone in L. destruct L as (L & _). congruence. }
  destruct (has_container _ CKIndex || has_container _ CKType || has_container _ CKId) eqn:CM; [|exact (G H)].
  apply bind_ok in H. destruct H as (l & El & H). injection H as <-. destruct (index_map_same _ _ _ _ _ C P R El) as (l' & El' & Rl). rewrite El'. cbn [bind].
  eexists. split; [reflexivity|]. split; [constructor; exact Rl|]. intros L. apply list_alone in L. destruct L as (_ & L1 & L2 & L3). rewrite L1, L2, L3 in CM. discriminate.
Qed.
Lemma list_sim i l m : Forall2 sim l m -> sim (i, OList l) (i, OList m).
Proof.
  intros F. split; [split; [reflexivity|]|split].
  - constructor. clear -F. induction F as [|a b l m S F IH]; constructor; [apply S|exact IH].
  - constructor. eapply Forall2_and_l; [exact F|]. intros a b X. apply X.
  - constructor. eapply Forall2_and_r; [exact F|]. intros a b X. apply X.
Qed.
Lemma rsim_list x y : rsim x y -> x_is_list x = x_is_list y.
Proof. destruct 1; try reflexivity. apply sim_list. assumption. Qed.
Lemma wraps_same d x x' : rsim x x' -> (has_container d CKList = true -> xsim x x') -> rsim (wrap_graph fin rnd d (wrap_list d x)) (wrap_graph fin rnd d (wrap_list d x')).
Proof.
  intros R L.
  assert (W : rsim (wrap_list d x) (wrap_list d x')).
  { unfold wrap_list. rewrite (rsim_list _ _ R). destruct (has_container d CKList); [|exact R]. destruct (negb (x_is_list x')); [|exact R]. cbn. constructor. apply list_sim, xsim_items, L. reflexivity. }
  unfold wrap_graph. destruct (_ && _ && _); [|exact W]. constructor. apply (reordered_map sim); [intros; apply graph_of_sim; assumption|apply rsim_items, W].
Qed.
Lemma property_upds_same c key p v v' us : reached c -> part v doc -> shuffled v v' -> property_upds c key p v = Ok us ->
  exists us', property_upds c key p v' = Ok us' /\ Forall2 usim us us'.
Proof.
  intros C P S H. unfold property_upds in *. destruct (id_has_colon p).
  - apply bind_ok in H. destruct H as (b & Eb & H). rewrite Eb. cbn [bind]. destruct b; cbn [negb] in *; [|injection H as <-; exists []; split; [reflexivity|constructor]].
    apply bind_ok in H. destruct H as (x & Ex & H). destruct (property_same _ _ _ _ _ C P S Ex) as (x' & Ex' & R & L). rewrite Ex'. cbn [bind]. cbn zeta in *.
    pose proof (wraps_same _ _ _ R L) as W.
    assert (G : forall y y', rsim y y' -> (if revterm c key then do l <- as_nodes XInvalidReversePropertyValue (items y) ; Ok [URev p l] else Ok [UProp p (items y)]) = Ok us ->
      exists us', (if revterm c key then do l <- as_nodes XInvalidReversePropertyValue (items y') ; Ok [URev p l] else Ok [UProp p (items y')]) = Ok us' /\ Forall2 usim us us').
    { intros y y' Y Q. apply rsim_items in Y. destruct (revterm c key); [|injection Q as <-; eexists; split; [reflexivity|constructor; [constructor; exact Y|constructor]]].
      apply bind_ok in Q. destruct Q as (l & El & Q). injection Q as <-. destruct (as_nodes_sim _ _ _ _ Y El) as (l' & El' & Ll). rewrite El'. cbn [bind].
      eexists. split; [reflexivity|]. constructor; [constructor; exact Ll|constructor]. }
    pose proof (G _ _ W) as GW. destruct W; [injection H as <-; exists []; split; [reflexivity|constructor]|exact (GW H)|exact (GW H)].
  - apply bind_ok in H. destruct H as (b & Eb & H). rewrite Eb. cbn [bind]. destruct (xo_allow_undefined o); [|discriminate]. injection H as <-. exists []. split; [reflexivity|constructor].
Qed.
Lemma entry_upds_same ap c tsc e e' us : reached c -> part (snd e) doc -> xent e e' -> entry_upds ap c tsc e = Ok us ->
  exists us', entry_upds ap c tsc e' = Ok us' /\ reordered usim us us'.
Proof.
  intros C P [K S] H. destruct e as [[key t] v], e' as [[key' t'] v']. cbn [fst snd] in *. injection K as <- <-.
  assert (N : @Ok _ xerr [] = Ok us -> exists us' : list upd, @Ok _ xerr [] = Ok us' /\ reordered usim us us').
  { intros E. injection E as <-. exists []. split; [reflexivity|exists []; constructor]. }
  assert (One : forall u u', usim u u' -> @Ok _ xerr [u] = Ok us -> exists us' : list upd, @Ok _ xerr [u'] = Ok us' /\ reordered usim us us').
  { intros u u' U E. injection E as <-. eexists. split; [reflexivity|]. apply reordered_of. constructor; [exact U|constructor]. }
  unfold entry_upds in *. destruct t as [|p|k]; [exact (N H)| |].
  { destruct (property_upds_same _ _ _ _ _ _ C P S H) as (us' & E & F). exists us'. split; [exact E|apply reordered_of, F]. }
  destruct k; try exact (N H); (destruct (ap_is ap KReverse); [discriminate|]); try exact (N H); try discriminate; rewrite <- ?(shuffled_str _ _ S), <- ?(types_of_same _ _ _ S).
  - exact (One _ _ UsFlag H).
  - apply bind_ok in H. destruct H as (x & Ex & H). destruct (HR _ _ _ _ _ _ C P S Ex) as (x' & Ex' & X). rewrite Ex'. cbn [bind]. apply xsim_items in X.
    refine (One _ _ _ H). assert (F : reordered sim (filter top_level (items x)) (filter top_level (items x'))).
    { apply reordered_of, Forall2_filter; [apply sim_top|exact X]. }
    constructor; [apply oset_sim, F|apply oset_wf, (sims_l _ _ F)|apply oset_wf, (sims_r _ _ F)].
  - destruct (as_str v); [|discriminate]. apply bind_ok in H. destruct H as (t & Et & H). rewrite Et. cbn [bind]. exact (One _ _ (UsId _) H).
  - destruct (xo_mode o); [exact (N H)|]. apply bind_ok in H. destruct H as (x & Ex & H). destruct (HR _ _ _ _ _ _ C P S Ex) as (x' & Ex' & X). rewrite Ex'. cbn [bind].
    apply xsim_items, reordered_of in X. apply bind_ok in H. destruct H as (l & El & H). destruct (as_nodes_sim _ _ _ _ X El) as (l' & El' & Ll). rewrite El'. cbn [bind]. exact (One _ _ (UsInc _ _ Ll) H).
  - destruct (as_str v); [|discriminate]. exact (One _ _ (UsIndex _) H).
  - exact (One _ _ UsFlag H).
  - destruct S as [| | | | |m m' R]; try discriminate. fold ent in R. revert H. apply (flat_rel _ _ ent); [apply sorted_ents, R|]. intros e e' ys I E X.
    apply entries_in in I. destruct e as [k x]. destruct (reverse_upds_same c (k, x) e' ys C (part_field _ _ _ _ P I) E X) as (ys' & Q & F). exists ys'. split; [exact Q|apply reordered_of, F].
  - apply bind_ok in H. destruct H as (ts & Et & H). rewrite Et. cbn [bind]. exact (One _ _ (UsTypes _) H).
Qed.

(** Which updates an entry makes. *)
Definition made_by (c : actx) (e : xentry) (u : upd) : Prop :=
  match u with
  | UId _ => snd (fst e) = TmKw KId
  | UTypes _ => snd (fst e) = TmKw KType
  | UGraph _ => snd (fst e) = TmKw KGraph
  | UInc _ => snd (fst e) = TmKw KIncluded
  | UIndex _ => snd (fst e) = TmKw KIndex
  | URev _ _ => snd (fst e) = TmKw KReverse \/ revterm c (fst (fst e)) = true
  | UProp _ _ | UFlag => True
  end.
Definition is_prop (u : upd) : Prop := match u with UProp _ _ | URev _ _ => True | _ => False end.
Lemma reverse_is_prop c e us : reverse_upds c e = Ok us -> Forall is_prop us.
Proof.
  destruct e as [k v]. unfold reverse_upds. intros H. apply bind_ok in H. destruct H as (t & _ & H).
  destruct t as [[|p|w]|]; try discriminate; try (destruct (_ || _); [discriminate|]; injection H as <-; constructor).
  destruct (id_has_colon p); [|destruct (_ || _); [discriminate|]; injection H as <-; constructor].
  apply bind_ok in H. destruct H as (b & _ & H). destruct (negb b); [injection H as <-; constructor|]. apply bind_ok in H. destruct H as (x & _ & H).
  destruct (revterm c k); [injection H as <-; repeat constructor|]. apply bind_ok in H. destruct H as (l & _ & H). injection H as <-. repeat constructor.
Qed.
Lemma entry_made ap c tsc e us : entry_upds ap c tsc e = Ok us -> Forall (made_by c e) us /\ ForallOrdPairs free us.
Proof.
  destruct e as [[key t] v]. intros H.
  assert (N : @Ok _ xerr [] = Ok us -> Forall (made_by c (key, t, v)) us /\ ForallOrdPairs free us) by (intros E; injection E as <-; split; constructor).
  assert (One : forall u, made_by c (key, t, v) u -> @Ok _ xerr [u] = Ok us -> Forall (made_by c (key, t, v)) us /\ ForallOrdPairs free us).
  { intros u U E. injection E as <-. split; constructor; try constructor. exact U. }
  unfold entry_upds in H. destruct t as [|p|k]; [exact (N H)| |].
  { unfold property_upds in H. destruct (id_has_colon p).
    - apply bind_ok in H. destruct H as (b & _ & H). destruct (negb b); [exact (N H)|]. apply bind_ok in H. destruct H as (x & _ & H). cbn zeta in H.
      destruct (wrap_graph fin rnd _ _); [exact (N H)| |]; (destruct (revterm c key) eqn:RT; [apply bind_ok in H; destruct H as (ns & _ & H); exact (One (URev _ _) (or_intror RT) H)|exact (One (UProp _ _) I H)]).
    - apply bind_ok in H. destruct H as (b & _ & H). destruct (xo_allow_undefined o); [exact (N H)|discriminate]. }
  destruct k; try exact (N H); (destruct (ap_is ap KReverse); [discriminate|]); try exact (N H); try discriminate.
  - exact (One UFlag I H).
  - apply bind_ok in H. destruct H as (x & _ & H). exact (One (UGraph _) eq_refl H).
  - destruct (as_str v); [|discriminate]. apply bind_ok in H. destruct H as (x & _ & H). exact (One (UId _) eq_refl H).
  - destruct (xo_mode o); [exact (N H)|]. apply bind_ok in H. destruct H as (x & _ & H). apply bind_ok in H. destruct H as (l & _ & H). exact (One (UInc _) eq_refl H).
  - destruct (as_str v); [|discriminate]. exact (One (UIndex _) eq_refl H).
  - exact (One UFlag I H).
  - destruct v; try discriminate. assert (F : Forall is_prop us) by (refine (flat_forall _ _ _ _ H _); intros; eapply reverse_is_prop; eassumption). split.
    + eapply Forall_impl; [|exact F]. intros u. destruct u; cbn; tauto.
    + clear -F. induction F as [|u us U F IH]; constructor; [|exact IH]. eapply Forall_impl; [|exact F]. intros w W. destruct u, w; cbn in *; tauto.
  - apply bind_ok in H. destruct H as (x & _ & H). exact (One (UTypes _) eq_refl H).
Qed.

(** The node built from entries. *)
Definition sets (u : upd) (k : keyword) : bool :=
  match u with
  | UId _ => keyword_eqb k KId | UTypes _ => keyword_eqb k KType | UGraph _ => keyword_eqb k KGraph | UInc _ => keyword_eqb k KIncluded
  | URev _ _ => keyword_eqb k KReverse | _ => false
  end.
Lemma sets_key u s k : sets u k = false -> has_key (snd (fst (app_upd s u))) k = has_key (snd (fst s)) k.
Proof.
  intros H. destruct s as [[i n] f]. destruct n as [ni ts g inc ps rs]. unfold app_upd, ShuffleNode.app_upd, on_node. destruct u; cbn [fst snd];
    rewrite ?add_types_cases; destruct k; try reflexivity; try discriminate H; destruct l; reflexivity.
Qed.
Lemma fold_key us k : forall s, Forall (fun u => sets u k = false) us -> has_key (snd (fst (fold_left app_upd us s))) k = has_key (snd (fst s)) k.
Proof. induction us as [|u us IH]; intros s F; [reflexivity|]. inversion F; subst. cbn [fold_left]. rewrite IH by assumption. apply sets_key. assumption. Qed.
Lemma fold_forward self ap c tsc es : Forall (fun e => snd (fst e) <> TmKw KNest) es -> forall s s',
  fold_r (node_entry io ld fin rnd pf o rec self ap c tsc) s es = Ok s' -> exists us, flat_r (entry_upds ap c tsc) es = Ok us /\ s' = fold_left app_upd us s.
Proof.
  induction 1 as [|e es N F IH]; intros s s' H; cbn in H; [injection H as <-; exists []; auto|].
  apply bind_ok in H. destruct H as (s1 & E1 & H). pose proof (entry_collides _ _ _ _ _ _ _ E1) as Q. rewrite entry_eq in E1 by assumption.
  apply bind_ok in E1. destruct E1 as (us & Eu & E1). injection E1 as <-. destruct (IH _ _ H) as (vs & Ev & ->). exists (us ++ vs). cbn. rewrite Eu, Ev. split; [reflexivity|].
  rewrite fold_left_app. reflexivity.
Qed.
(** No [@reverse] next to a reverse property. *)
Definition no_clash (c : actx) (es : list xentry) : Prop := forall e e', In e es -> In e' es -> snd (fst e) = TmKw KReverse -> revterm c (fst (fst e')) = false.
Lemma fold_backward self ap c tsc es : Forall (fun e => snd (fst e) <> TmKw KNest) es -> ForallOrdPairs apart es -> no_clash c es ->
  forall s us, (forall e k, In e es -> snd (fst e) = TmKw k -> has_key (snd (fst s)) k = false) ->
  flat_r (entry_upds ap c tsc) es = Ok us -> fold_r (node_entry io ld fin rnd pf o rec self ap c tsc) s es = Ok (fold_left app_upd us s).
Proof.
  induction 1 as [|e es N F IH]; intros A C s us K H; cbn in H; [injection H as <-; reflexivity|].
  apply bind_ok in H. destruct H as (vs & Ev & H). apply bind_ok in H. destruct H as (ws & Ew & H). injection H as <-. inversion A as [|? ? Ae A']; subst. cbn [fold_r].
  rewrite entry_eq; [rewrite Ev; cbn [bind]|exact N|].
  - rewrite fold_left_app. apply IH; auto.
    + intros x y I J. apply C; right; assumption.
    + intros e' k I T. rewrite fold_key; [apply (K e' k); [right|]; assumption|].
      destruct (entry_made _ _ _ _ _ Ev) as [M _]. eapply Forall_impl; [|exact M]. intros u U. pose proof (Forall_in _ _ _ Ae I) as Ax.
      assert (G : forall w, snd (fst e) = TmKw w -> keyword_eqb k w = false).
      { intros w Tw. destruct (keyword_eqb_spec k w) as [->|]; [|reflexivity]. destruct (Ax w). auto. }
      destruct u; cbn in U |- *; auto. destruct U as [U|U]; [apply G, U|]. destruct (keyword_eqb_spec k KReverse) as [->|]; [|reflexivity].
      rewrite (C e' e) in U; [discriminate|right; exact I|left; reflexivity|exact T].
  - unfold collides. destruct (snd (fst e)) as [| |k] eqn:T; try reflexivity. rewrite (K e k (or_introl eq_refl) T). apply andb_false_r.
Qed.
Lemma pairs_free ap c tsc es us : ForallOrdPairs apart es -> flat_r (entry_upds ap c tsc) es = Ok us -> ForallOrdPairs free us.
Proof.
  assert (M : forall es us, flat_r (entry_upds ap c tsc) es = Ok us -> Forall (fun u => exists e, In e es /\ made_by c e u) us).
  { clear. intros es us H. refine (flat_forall _ _ _ _ H _). intros e ys I E. destruct (entry_made _ _ _ _ _ E) as [M _]. eapply Forall_impl; [|exact M]. eauto. }
  intros A. revert us. induction A as [|e es Ae A IH]; intros us H; cbn in H; [injection H as <-; constructor|].
  apply bind_ok in H. destruct H as (vs & Ev & H). apply bind_ok in H. destruct H as (ws & Ew & H). injection H as <-.
  destruct (entry_made _ _ _ _ _ Ev) as [Mv Fv]. specialize (IH _ Ew). pose proof (M _ _ Ew) as Mw.
  assert (X : forall u w, In u vs -> In w ws -> free u w).
  { intros u w I J. pose proof (Forall_in _ _ _ Mv I) as U. destruct (Forall_in _ _ _ Mw J) as (e' & I' & W). pose proof (Forall_in _ _ _ Ae I') as Ax.
    destruct u, w; cbn in *; auto; eapply Ax; eauto. }
  clear -Fv IH X. induction Fv as [|u vs Fu Fv IHv]; [exact IH|]. cbn. constructor.
  - apply Forall_app. split; [exact Fu|]. apply Forall_forall. intros w J. apply X; [left; reflexivity|exact J].
  - apply IHv. intros; apply X; [right|]; assumption.
Qed.
Lemma expand_node_same m ap c tsc es es' r : reached c -> Forall (fun e => part (snd e) doc) es -> reordered xent es es' ->
  Forall (fun e => snd (fst e) <> TmKw KNest) es' -> ForallOrdPairs apart es' -> no_clash c es' -> Forall (fun e => snd (fst e) <> TmKw KNest) es ->
  expand_node io ld fin rnd pf o rec m ap c tsc es = Ok r -> exists r', expand_node io ld fin rnd pf o rec m ap c tsc es' = Ok r' /\ both simn r r'.
Proof.
  intros C P R N' A' NC' N H. unfold expand_node in *. apply bind_ok in H. destruct H as ([n hv] & E & H).
  destruct m as [|m]; [discriminate|]. cbn [node_entries] in *.
  destruct (fold_forward _ _ _ _ _ N _ _ E) as (us & Eu & S).
  assert (Q : exists us', flat_r (entry_upds ap c tsc) es' = Ok us' /\ reordered usim us us').
  { revert Eu. apply (flat_rel _ _ xent); [exact R|]. intros x y ys I X. apply entry_upds_same; auto. exact (Forall_in _ _ _ P I). }
  destruct Q as (us' & Eu' & U).
  set (s0 := (None, node_new None, false) : nstate) in *.
  assert (Fb : fold_r (node_entry io ld fin rnd pf o rec (node_entries io ld fin rnd pf o rec m ap tsc) ap c tsc) s0 es' = Ok (fold_left app_upd us' s0)).
  { apply fold_backward; auto. intros e k _ _. destruct k; reflexivity. }
  assert (SS : ssim (n, hv) (fold_left app_upd us' s0)).
  { rewrite S. apply reordered_upds; [exact U|exact (pairs_free _ _ _ _ _ A' Eu')|]. split; [reflexivity|]. split; [reflexivity|]. apply nsim_refl, new_wf. }
  rewrite Fb. cbn [bind]. destruct (fold_left app_upd us' s0) as [[i' n'] hv']. destruct SS as (S1 & S2 & S3). destruct n as [i n]. cbn [fst snd] in *. subst hv' i'.
  rewrite <- (nsim_empty _ _ S3), <- (ns_id _ _ S3). destruct (hv && _ && _); [injection H as <-; eexists; split; [reflexivity|constructor]|].
  destruct (_ && _ && _); [injection H as <-; eexists; split; [reflexivity|constructor]|]. injection H as <-. eexists. split; [reflexivity|]. constructor.
  split; [split; [reflexivity|apply nsim_same, S3]|]. split; apply S3.
Qed.

(** *** Elements *)
Lemma ent_part m e : part (JObj m) doc -> In e m -> part (snd e) doc.
Proof. destruct e as [k v]. intros P I. exact (part_field _ _ _ _ P I). Qed.
Lemma map_same n c ap m m' fm x : reached c -> part (JObj m) doc -> reordered ent m m' -> expand_map io ld fin rnd pf o base_url rec n c ap m fm = Ok x ->
  exists x', expand_map io ld fin rnd pf o base_url rec n c ap m' fm = Ok x' /\ xsim x x'.
Proof.
  intros C P R H. unfold expand_map in *. apply bind_ok in H. destruct H as (tsc & E1 & H). pose proof (context_reached _ _ _ _ _ _ _ _ _ _ _ _ C P E1) as T.
  rewrite (context_same _ _ _ _ _ _ R E1). cbn [bind]. apply bind_ok in H. destruct H as (ts & E2 & H).
  destruct (type_entries_same _ _ _ _ (HC _ _ T P) R E2) as (ts' & E2' & Ft & It). rewrite E2'. cbn [bind]. apply bind_ok in H. destruct H as (c1 & E3 & H).
  pose proof (type_scoped_reached _ _ _ _ _ _ _ _ _ _ T E3) as C1. rewrite <- (type_scoped_same _ _ _ Ft), E3. cbn [bind].
  apply bind_ok in H. destruct H as (it & E4 & H). rewrite <- (input_type_same _ _ _ Ft), E4. cbn [bind].
  apply bind_ok in H. destruct H as (es & E5 & H). destruct (entries_same _ _ _ _ R E5) as (es' & E5' & Re). rewrite E5'. cbn [bind].
  pose proof (HC _ _ C1 P) as CL. pose proof (clear_perm _ _ _ R CL) as CL'. pose proof (entries_apart _ _ _ CL E5) as A. pose proof (entries_apart _ _ _ CL' E5') as A'.
  pose proof (entries_from _ _ _ E5) as Fe. pose proof (entries_from _ _ _ E5') as Fe'.
  assert (Pe : Forall (fun e => part (snd e) doc) es).
  { eapply Forall_impl; [|exact Fe]. intros e [I _]. exact (part_field _ _ _ _ P I). }
  assert (PL : forall k v, last_entry k es = Some v -> part v doc).
  { intros k v L. destruct (last_in _ _ _ L) as (e & I & <- & _). exact (Forall_in _ _ _ Pe I). }
  assert (NN : forall m es, clear io o c1 m -> Forall (fun e => In (fst (fst e), snd e) m /\ xkey io o c1 (fst (fst e)) = Ok (Some (snd (fst e)))) es -> Forall (fun e => snd (fst e) <> TmKw KNest) es).
  { intros m0 es0 CL0 F0. eapply Forall_impl; [|exact F0]. intros e [I X] K. rewrite K in X. refine (cl_nest _ _ _ _ CL0 _ _ X). apply (in_map fst) in I. exact I. }
  assert (NC : no_clash c1 es').
  { intros e e' I I' K. destruct (Forall_in _ _ _ Fe' I) as [J X]. destruct (Forall_in _ _ _ Fe' I') as [J' _]. unfold revterm.
    destruct (prop_def c1 (Some (fst (fst e')))) as [d|] eqn:D; [|reflexivity]. destruct (prop_get _ _ _ D) as (k & Ek & G). injection Ek as <-. rewrite K in X.
    apply (in_map fst) in J. apply (in_map fst) in J'. exact (cl_rev _ _ _ _ CL' _ _ _ J J' X G). }
  set (b := is_some ap && negb (ap_is ap KGraph)) in *.
  assert (BL : both shuffled (if b then last_entry KList es else None) (if b then last_entry KList es' else None)).
  { destruct b; [apply last_same; assumption|constructor]. }
  pose proof (last_same KSet _ _ A A' Re) as BS. pose proof (last_same KValue _ _ A A' Re) as BV.
  destruct (if b then last_entry KList es else None) as [l|] eqn:QL; destruct (if b then last_entry KList es' else None) as [l'|]; inversion BL as [|? ? Sl]; subst.
  { assert (Pl : part l doc) by (destruct b; [exact (PL _ _ QL)|discriminate]).
    apply bind_ok in H. destruct H as (i & Ei & H). rewrite (list_index_same _ _ _ A' Re Ei). cbn [bind]. apply bind_ok in H. destruct H as (r & Er & H). injection H as <-.
    assert (Q : exists r', flat_r (fun item => do x <- rec c1 ap item false ; Ok (items x)) (force_array l') = Ok r' /\ Forall2 sim r r').
    { revert Er. apply (flat_f2 _ _ shuffled); [apply shuffled_force, Sl|]. intros u v ys I S X. apply bind_ok in X. destruct X as (z & Ez & X). injection X as <-.
      destruct (HR _ _ _ _ _ _ C1 (part_force _ _ _ Pl I) S Ez) as (z' & Ez' & Z). rewrite Ez'. cbn [bind]. eexists. split; [reflexivity|apply xsim_items, Z]. }
    destruct Q as (r' & Er' & F). rewrite Er'. cbn [bind]. eexists. split; [reflexivity|]. constructor. apply list_sim, F. }
  destruct (last_entry KSet es) as [l|] eqn:QS; destruct (last_entry KSet es') as [l'|]; inversion BS as [|? ? Ss]; subst.
  { apply bind_ok in H. destruct H as (u & Eu & H). rewrite (set_check_same _ _ _ Re Eu). cbn [bind]. exact (HR _ _ _ _ _ _ C1 (PL _ _ QS) Ss H). }
  destruct (last_entry KValue es) as [v|] eqn:QV; destruct (last_entry KValue es') as [v'|]; inversion BV as [|? ? Sv]; subst.
  - apply bind_ok in H. destruct H as (r & Er & H). injection H as <-. unfold map_err in Er. destruct (expand_value io o it tsc es v) as [r0|] eqn:Ev; [|discriminate]. injection Er as ->.
    assert (NJ : it <> Some (TmKw KJson)).
    { intros ->. unfold input_type in E4. destruct ts as [|[k w] ts]; [discriminate|]. destruct (rev (force_array w)) as [|[] ?] eqn:RV; try discriminate.
      unfold xkey, map_err in E4. destruct (xiri io c1 s false (Some (xo_vocab o))) as [u|] eqn:X; [|discriminate]. injection E4 as ->.
      refine (proj2 (HJ _ C1) s false _ X). assert (I : In (JStr s) (force_array w)) by (apply in_rev; rewrite RV; left; reflexivity).
      refine (part_force _ _ _ _ I). exact (part_field _ _ _ _ P (It (k, w) (or_introl eq_refl))). }
    destruct (value_same _ _ _ _ _ _ _ T Pe NJ A' Re Sv Ev) as [Ev' W]. rewrite Ev'. cbn. eexists. split; [reflexivity|]. destruct r as [y|]; [|constructor]. constructor. apply sim_refl, W. reflexivity.
  - apply bind_ok in H. destruct H as (r & Er & H). injection H as <-.
    destruct (expand_node_same _ _ _ _ _ _ _ C1 Pe Re (NN _ _ CL' Fe') A' NC (NN _ _ CL Fe) Er) as (r' & Er' & Br). rewrite Er'. cbn [bind]. eexists. split; [reflexivity|].
    destruct Br as [|[i a] [i' a'] ([E S] & W1 & W2)]; [constructor|]. cbn in *. subst i'. constructor. apply nsim_sim, same_nsim; assumption.
Qed.
Lemma scalar_same c ap j x : expand_scalar io ld pf o c ap j = Ok x -> xsim x x.
Proof.
  intros H. unfold expand_scalar in H. destruct (free_floating ap); [injection H as <-; constructor|]. apply bind_ok in H. destruct H as (c1 & _ & H).
  destruct (given j) as [l|]; [|discriminate]. apply bind_ok in H. destruct H as (y & E & H). injection H as <-. unfold map_err in E.
  destruct (expand_literal io o c1 ap l) as [y'|] eqn:E'; [|discriminate]. injection E as ->. constructor. apply sim_refl. exact (literal_wf _ _ _ _ E').
Qed.
Lemma body_same n c ap j j' fm x : reached c -> part j doc -> shuffled j j' -> element_body io ld fin rnd pf o base_url rec n c ap j fm = Ok x ->
  exists x', element_body io ld fin rnd pf o base_url rec n c ap j' fm = Ok x' /\ xsim x x'.
Proof.
  intros C P S H. unfold element_body in *. destruct S as [|b|s|s|l l' F|m m' R].
  - injection H as <-. exists XNull. split; [reflexivity|constructor].
  - exists x. split; [exact H|exact (scalar_same _ _ _ _ H)].
  - exists x. split; [exact H|exact (scalar_same _ _ _ _ H)].
  - exists x. split; [exact H|exact (scalar_same _ _ _ _ H)].
  - apply bind_ok in H. destruct H as (r & Er & H). injection H as <-.
    assert (Q : exists r', flat_r (fun item => do x <- rec c ap item fm ; Ok (items x)) l' = Ok r' /\ Forall2 sim r r').
    { revert Er. apply (flat_f2 _ _ shuffled); [exact F|]. intros u v ys I S X. apply bind_ok in X. destruct X as (z & Ez & X). injection X as <-.
      destruct (HR _ _ _ _ _ _ C (part_item _ _ _ P I) S Ez) as (z' & Ez' & Z). rewrite Ez'. cbn [bind]. eexists. split; [reflexivity|apply xsim_items, Z]. }
    destruct Q as (r' & Er' & Fr). rewrite Er'. cbn [bind]. eexists. split; [reflexivity|]. destruct (has_container _ _); constructor; [apply list_sim|]; exact Fr.
  - exact (map_same _ _ _ _ _ _ _ C P R H).
Qed.
End Rec.

Lemma element_same n : forall c ap j j' fm x, reached c -> part j doc -> shuffled j j' -> expand_element io ld fin rnd pf o base_url n c ap j fm = Ok x ->
  exists x', expand_element io ld fin rnd pf o base_url n c ap j' fm = Ok x' /\ xsim x x'.
Proof. induction n as [|n IH]; intros c ap j j' fm x C P S H; [discriminate|]. exact (body_same _ IH _ _ _ _ _ _ _ C P S H). Qed.
Lemma unnamed_same x y : sim x y -> both (reordered sim) (unnamed_graph x) (unnamed_graph y).
Proof.
  intros S. unfold unnamed_graph. destruct x as [i x], y as [i' y]. pose proof S as ([E SO] & _). cbn in *. destruct SO as [|a a' SN|]; try constructor.
  apply sim_nsim in S. destruct S as [_ S]. rewrite (nsim_graph _ _ S), (ns_id _ _ S). destruct (is_graph a' && negb (is_some (n_id a'))); [|constructor]. apply S.
Qed.
Lemma unnamed_wf x l : wf (snd x) -> unnamed_graph x = Some l -> Forall (fun x => wf (snd x)) l /\ distinct same_i l.
Proof.
  unfold unnamed_graph. destruct x as [i x]. cbn. destruct x as [|a|]; try discriminate. inversion 1 as [|? W|]; subst. destruct (_ && _); [|discriminate].
  destruct W as [i' ts g inc ps rs W D]. cbn. intros ->. split; assumption.
Qed.
Theorem expand_same n doc' l : shuffled doc doc' -> expand io ld fin rnd pf o base_url n c0 doc = Ok l ->
  exists l', expand io ld fin rnd pf o base_url n c0 doc' = Ok l' /\ reordered sim l l' /\ distinct same_i l /\ distinct same_i l'.
Proof.
  intros S H. unfold expand in *. apply bind_ok in H. destruct H as (x & E & H). injection H as <-.
  destruct (element_same _ _ _ _ _ _ _ (RcSelf _ _ _ _ _ _) (PaSelf _) S E) as (x' & E' & X). rewrite E'. cbn [bind]. eexists. split; [reflexivity|]. apply xsim_items in X.
  assert (O : forall l m, Forall2 sim l m -> reordered sim (oset fin rnd l) (oset fin rnd m) /\ distinct same_i (oset fin rnd l) /\ distinct same_i (oset fin rnd m)).
  { intros l m F. apply reordered_of in F. split; [apply oset_sim, F|]. split; apply oset_wf; [eapply reordered_fl|eapply reordered_fr]; try exact F; intros a b Y; apply Y. }
  assert (G := O _ _ (Forall2_filter _ _ _ _ sim_top X)).
  destruct X as [|a b l m Sab F]; [exact G|]. destruct F as [|c d l m Scd F]; [|exact G].
  destruct (unnamed_graph a) as [u|] eqn:Ua.
  - pose proof (unnamed_same _ _ Sab) as U. rewrite Ua in U. inversion U as [|? v Ruv Eu Ev]; subst. symmetry in Ev.
    split; [exact Ruv|]. split; [apply (unnamed_wf a)|apply (unnamed_wf b)]; try assumption; apply Sab.
  - pose proof (unnamed_same _ _ Sab) as U. rewrite Ua in U. inversion U as [Ev|]; subst. rewrite <- (sim_top _ _ Sab).
    destruct (top_level a); [apply (O [a] [b]); constructor; [exact Sab|constructor]|]. split; [exists []; constructor|split; constructor].
Qed.
End Order.

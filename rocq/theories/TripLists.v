(** Lists and maps, for the round trip of compaction and expansion. *)
From Verif Require Import Prelude Json Str Keyword Enums Container Ctx Object ObjectJson ObjectEq ObjectJsonProofs AddValue Expand Compact CompactKept.

(** ** Values added under keys that are not in the first part of an object *)
Lemma assoc_app_r {A} k (m0 mp : list (string * A)) : ~ In k (map fst m0) -> assoc k (m0 ++ mp) = assoc k mp.
Proof.
  induction m0 as [|[k' v] m0 IH]; [reflexivity|]. cbn [app assoc map fst In]. intros H. destruct (streq_spec k k') as [->|_]; [tauto|]. apply IH. tauto.
Qed.
Lemma get_unique_app k m0 mp : ~ In k (keys m0) -> get_unique k (m0 ++ mp) = get_unique k mp.
Proof.
  intros H. unfold get_unique. assert (E : get_all k (m0 ++ mp) = get_all k mp); [|rewrite E; reflexivity].
  apply get_all_nil in H. unfold get_all in *. rewrite filter_app, map_app, H. reflexivity.
Qed.
Lemma insert_app k v m0 mp : ~ In k (keys m0) -> insert k v (m0 ++ mp) = m0 ++ insert k v mp.
Proof.
  unfold keys. induction m0 as [|[k' v'] m0 IH]; [reflexivity|]. cbn [app insert map fst In]. intros H. destruct (streq_spec k' k) as [->|_]; [tauto|].
  rewrite IH by tauto. reflexivity.
Qed.
Lemma remove_key_app k m0 mp : ~ In k (keys m0) -> remove_key k (m0 ++ mp) = m0 ++ remove_key k mp.
Proof. intros H. apply remove_key_notin in H. unfold remove_key in *. rewrite filter_app, H. reflexivity. Qed.
Lemma prepare_app k m0 mp b : ~ In k (keys m0) -> av_prepare (m0 ++ mp) k b = option_map (app m0) (av_prepare mp k b).
Proof.
  intros H. unfold av_prepare. rewrite get_unique_app by exact H. destruct (get_unique k mp) as [[v|]|]; [|destruct b|reflexivity].
  - destruct (is_array v); [reflexivity|]. rewrite remove_key_app, insert_app by exact H. reflexivity.
  - rewrite insert_app by exact H. reflexivity.
  - reflexivity.
Qed.
Lemma push_app k m0 mp v : ~ In k (keys m0) -> av_push (m0 ++ mp) k v = option_map (app m0) (av_push mp k v).
Proof.
  intros H. unfold av_push. rewrite get_unique_app by exact H. destruct (get_unique k mp) as [[[]|]|]; try reflexivity; rewrite insert_app by exact H; reflexivity.
Qed.
Lemma add_value_app v : forall k m0 mp b, ~ In k (keys m0) -> add_value (m0 ++ mp) k v b = option_map (app m0) (add_value mp k v b).
Proof.
  assert (S : forall v k m0 mp b, is_array v = false -> ~ In k (keys m0) -> add_value (m0 ++ mp) k v b = option_map (app m0) (add_value mp k v b)).
  { intros w k m0 mp b A H. assert (E : forall m, add_value m k w b = match av_prepare m k b with Some m1 => av_push m1 k w | None => None end) by (intros m; destruct w; try reflexivity; discriminate).
    rewrite !E, prepare_app by exact H. destruct (av_prepare mp k b) as [m1|]; [|reflexivity]. cbn [option_map]. apply push_app, H. }
  induction v as [|x|x|x|l IH|x _] using json_ind'; intros k m0 mp b H; try (apply S; [reflexivity|exact H]).
  cbn [add_value]. rewrite prepare_app by exact H. destruct (av_prepare mp k b) as [m1|]; [|reflexivity]. cbn [option_map]. clear mp b.
  revert m1. induction IH as [|v l Hv _ IH]; intros m1; [reflexivity|]. rewrite Hv by exact H.
  destruct (add_value m1 k v false) as [m2|]; [|reflexivity]. cbn [option_map]. apply IH.
Qed.
Lemma kadd_app k m0 mp v b m' : ~ In k (keys m0) -> kadd (m0 ++ mp) k v b = Ok m' -> exists mp', m' = m0 ++ mp' /\ kadd mp k v b = Ok mp'.
Proof.
  intros H. unfold kadd. rewrite add_value_app by exact H. destruct (add_value mp k v b) as [m1|]; [|discriminate]. cbn. intros X. injection X as <-. eauto.
Qed.

(** ** Maps rebuilt from contributions *)
Section Regroup.
Context {A : Type}.
Implicit Types (ps : list (id * list A)) (ds : list (string * (id * list A))).

(** The values under an identifier; under a key. *)
Definition at_id (p : id) ps : list A := flat_map (fun e => if id_eqb (fst e) p then snd e else []) ps.
Definition at_key (k : string) ds : list A := flat_map (fun d => if streq (fst d) k then snd (snd d) else []) ds.

Lemma at_notin p ps : ~ In p (map fst ps) -> at_id p ps = [].
Proof. unfold at_id. induction ps as [|[q l] ps IH]; [reflexivity|]. cbn [flat_map map fst snd In]. intros H. destruct (id_eqb_spec q p) as [->|_]; [tauto|]. apply IH. tauto. Qed.
Lemma at_in p l ps : NoDup (map fst ps) -> In (p, l) ps -> at_id p ps = l.
Proof.
  unfold at_id. induction ps as [|[q m] ps IH]; [intros _ []|]. cbn [flat_map map fst snd]. intros N. inversion N as [|? ? NI N']; subst. intros [E|I].
  - injection E as -> ->. destruct (id_eqb_spec p p) as [_|X]; [|congruence]. fold (at_id p ps). rewrite (at_notin _ _ NI). apply app_nil_r.
  - destruct (id_eqb_spec q p) as [->|_]; [|apply IH; assumption]. exfalso. apply NI. apply in_map_iff. exists (p, l). auto.
Qed.
Lemma insert_all_keys p l ps q : In q (map fst (insert_all p l ps)) <-> q = p \/ In q (map fst ps).
Proof.
  induction ps as [|[k w] ps IH]; cbn [insert_all map fst In]; [intuition|]. destruct (id_eqb_spec p k) as [->|_]; cbn [map fst In]; [intuition|]. rewrite IH. intuition.
Qed.
Lemma insert_all_once p l ps : NoDup (map fst ps) -> NoDup (map fst (insert_all p l ps)).
Proof. apply insert_all_nodup. Qed.
Lemma at_insert q p l ps : NoDup (map fst ps) -> at_id q (insert_all p l ps) = at_id q ps ++ (if id_eqb p q then l else []).
Proof.
  unfold at_id. induction ps as [|[k w] ps IH]; intros N; cbn [insert_all flat_map fst snd].
  - rewrite app_nil_r. reflexivity.
  - cbn [map fst] in N. inversion N as [|? ? NI N']; subst. destruct (id_eqb_spec p k) as [->|D]; cbn [flat_map fst snd].
    + destruct (id_eqb_spec k q) as [->|_]; [|rewrite app_nil_r; reflexivity]. fold (at_id q ps). rewrite (at_notin _ _ NI), !app_nil_r. reflexivity.
    + rewrite IH by exact N'. rewrite app_assoc. reflexivity.
Qed.
Definition gather (es : list (id * list A)) ps : list (id * list A) := fold_left (fun r e => insert_all (fst e) (snd e) r) es ps.
Lemma gather_once es : forall ps, NoDup (map fst ps) -> NoDup (map fst (gather es ps)).
Proof. induction es as [|e es IH]; intros ps N; [exact N|]. apply IH, insert_all_once, N. Qed.
Lemma gather_keys es : forall ps q, In q (map fst (gather es ps)) <-> In q (map fst es) \/ In q (map fst ps).
Proof.
  induction es as [|e es IH]; intros ps q; [cbn; intuition|]. change (gather (e :: es) ps) with (gather es (insert_all (fst e) (snd e) ps)).
  rewrite IH, insert_all_keys. cbn [map In]. intuition.
Qed.
Lemma at_gather q es : forall ps, NoDup (map fst ps) -> at_id q (gather es ps) = at_id q ps ++ at_id q es.
Proof.
  induction es as [|e es IH]; intros ps N; [cbn; rewrite app_nil_r; reflexivity|]. change (gather (e :: es) ps) with (gather es (insert_all (fst e) (snd e) ps)).
  rewrite IH by apply insert_all_once, N. rewrite at_insert by exact N. rewrite <- app_assoc. reflexivity.
Qed.

(** Each contribution is taken once, for its key. *)
Lemma at_keys (f : string -> bool) ks ds : NoDup ks ->
  Permutation (flat_map (fun k => if f k then at_key k ds else []) ks)
    (flat_map (fun d => if f (fst d) && existsb (streq (fst d)) ks then snd (snd d) else []) ds).
Proof.
  intros N. induction ds as [|[k [p l]] ds IH].
  - match goal with |- Permutation ?x _ => assert (E : x = []); [|rewrite E; constructor] end.
    clear N. induction ks as [|k ks IH]; [reflexivity|]. cbn [flat_map]. rewrite IH. destruct (f k); reflexivity.
  - cbn [flat_map fst snd]. eapply perm_trans; [|apply Permutation_app_head, IH]. clear IH.
    induction ks as [|k' ks IH]; [cbn; rewrite andb_false_r; constructor|]. inversion N as [|? ? NI N']; subst. specialize (IH N').
    cbn [flat_map existsb]. unfold at_key at 1 3. cbn [flat_map fst snd]. fold (at_key k' ds).
    destruct (streq_spec k k') as [->|D]; cbn [orb].
    + rewrite andb_true_r. assert (E : existsb (streq k') ks = false).
      { destruct (existsb (streq k') ks) eqn:E; [|reflexivity]. apply existsb_exists in E. destruct E as (y & I & Y). apply streq_true in Y. subst. contradiction. }
      rewrite E, andb_false_r in IH. destruct (f k'); [|exact IH]. cbn [app] in IH. rewrite <- app_assoc. apply Permutation_app_head, Permutation_app_head, IH.
    + destruct (f k'); [|exact IH]. eapply perm_trans; [apply Permutation_app_head, IH|]. rewrite !app_assoc. apply Permutation_app_tail, Permutation_app_comm.
Qed.
End Regroup.

Lemma reordered_maps {A} (S : A -> A -> Prop) a : forall b : list (id * A), NoDup (map fst a) -> NoDup (map fst b) ->
  (forall p, In p (map fst a) <-> In p (map fst b)) -> (forall p l l', In (p, l) a -> In (p, l') b -> S l l') ->
  reordered (fun x y => fst x = fst y /\ S (snd x) (snd y)) a b.
Proof.
  induction a as [|[p l] a IH]; intros b Na Nb K H.
  - destruct b as [|[p l] b]; [exists []; constructor|]. destruct (proj2 (K p) (or_introl eq_refl)).
  - inversion Na as [|? ? NI Na']; subst. assert (I : In p (map fst b)) by (apply K; left; reflexivity).
    apply in_map_iff in I. destruct I as ([q l'] & E & I). cbn in E. subst q. apply in_split in I. destruct I as (b1 & b2 & ->).
    rewrite map_app in Nb. cbn [map fst] in Nb. pose proof (NoDup_remove_1 _ _ _ Nb) as N1. pose proof (NoDup_remove_2 _ _ _ Nb) as N2. rewrite <- map_app in N1, N2.
    destruct (IH (b1 ++ b2) Na' N1) as [m P F].
    + intros q. specialize (K q). rewrite map_app in K. cbn [map fst In] in K. rewrite in_app_iff in K. cbn [In] in K. rewrite map_app, in_app_iff. split.
      * intros J. destruct (proj1 K (or_intror J)) as [X|[X|X]]; auto. subst q. contradiction.
      * intros J. destruct K as [_ K]. destruct K as [X|X]; [tauto| |exact X]. subst q. destruct N2. rewrite map_app, in_app_iff. exact J.
    + intros q w w' J J'. apply (H q); [right; exact J|]. apply in_app_or in J'. apply in_or_app. destruct J'; [left|right; right]; assumption.
    + exists ((p, l') :: m).
      * eapply perm_trans; [apply Permutation_sym, Permutation_middle|]. constructor. exact P.
      * constructor; [|exact F]. split; [reflexivity|]. apply (H p); [left; reflexivity|apply in_elt].
Qed.

(** [ps] are properties, [dss] the contributions of each of them; [ks] are the keys. *)
Lemma regroup {A} (R : A -> A -> Prop) (ps : list (id * list A)) dss ks (pk : string -> id) :
  NoDup (map fst ps) -> NoDup ks -> (forall k, In k ks <-> In k (map fst (concat dss))) ->
  Forall2 (fun e ds => ds <> [] /\ Forall (fun d => pk (fst d) = fst e /\ fst (snd d) = fst e) ds /\ reordered R (snd e) (flat_map (fun d => snd (snd d)) ds)) ps dss ->
  reordered (fun x y => fst x = fst y /\ reordered R (snd x) (snd y)) ps (gather (map (fun k => (pk k, at_key k (concat dss))) ks) []).
Proof.
  intros Np Nk K F. apply reordered_maps.
  - exact Np.
  - apply gather_once. constructor.
  - intros p. rewrite gather_keys. cbn [map In]. rewrite map_map. cbn [fst]. split.
    + intros I. left. apply in_map_iff. apply in_map_iff in I. destruct I as (e & <- & I). destruct (Forall2_in_l _ _ _ _ F I) as (ds & Id & Nd & Fd & _).
      destruct ds as [|d ds]; [congruence|]. inversion Fd as [|? ? [Hd _] _]; subst. exists (fst d). split; [exact Hd|]. apply K. apply List.in_map, in_concat. exists (d :: ds). split; [exact Id|left; reflexivity].
    + intros [I|[]]. apply in_map_iff in I. destruct I as (k & <- & I). apply K in I. apply in_map_iff in I. destruct I as (d & <- & I). apply in_concat in I. destruct I as (ds & Id & I).
      assert (X : exists e, In e ps /\ Forall (fun d => pk (fst d) = fst e /\ fst (snd d) = fst e) ds).
      { clear - F Id. induction F as [|e x ps dss (_ & H & _) F IH]; [destruct Id|]. destruct Id as [<-|I]; [exists e; split; [left; reflexivity|exact H]|]. destruct (IH I) as (e' & I' & H'). exists e'. split; [right; exact I'|exact H']. }
      destruct X as (e & Ie & Fe). rewrite Forall_forall in Fe. destruct (Fe _ I) as [-> _]. apply List.in_map, Ie.
  - intros p l l' I J. assert (E : at_id p (gather (map (fun k => (pk k, at_key k (concat dss))) ks) []) = l').
    { apply at_in; [apply gather_once; constructor|exact J]. }
    rewrite at_gather in E by constructor. cbn [at_id flat_map app] in E. subst l'.
    assert (P : Permutation (at_id p (map (fun k => (pk k, at_key k (concat dss))) ks)) (flat_map (fun d => if id_eqb (fst (snd d)) p then snd (snd d) else []) (concat dss))).
    { unfold at_id. rewrite flat_map_concat_map, map_map, <- flat_map_concat_map. cbn [fst snd].
      eapply perm_trans; [apply (at_keys (fun k => id_eqb (pk k) p) ks (concat dss) Nk)|].
      match goal with |- Permutation ?x ?y => assert (Q : x = y); [|rewrite Q; apply Permutation_refl] end.
      assert (FA : Forall (fun d => pk (fst d) = fst (snd d) /\ In (fst d) ks) (concat dss)).
      { apply Forall_forall. intros d Id. split; [|apply K, List.in_map, Id]. apply in_concat in Id. destruct Id as (ds & Ids & Id).
        clear - F Ids Id. induction F as [|e x ps dss (_ & H & _) F IH]; [destruct Ids|]. destruct Ids as [->|I]; [|apply IH, I]. rewrite Forall_forall in H. destruct (H _ Id) as [-> ->]. reflexivity. }
      clear - FA. induction FA as [|d ds [E I] FA IH]; [reflexivity|]. cbn [flat_map]. rewrite E, IH.
      assert (X : existsb (streq (fst d)) ks = true) by (apply existsb_exists; exists (fst d); split; [exact I|apply streq_refl]).
      rewrite X, andb_true_r. reflexivity. }
    assert (B : reordered R l (flat_map (fun d => if id_eqb (fst (snd d)) p then snd (snd d) else []) (concat dss))).
    { clear - Np F I. induction F as [|[q m] ds ps dss (_ & H & G) F IH]; [destruct I|]. cbn [map fst snd] in *. inversion Np as [|? ? NI Np']; subst.
      cbn [concat]. rewrite flat_map_app. destruct I as [E|I].
      - injection E as -> ->.
        assert (E1 : flat_map (fun d => if id_eqb (fst (snd d)) p then snd (snd d) else []) ds = flat_map (fun d => snd (snd d)) ds).
        { clear - H. induction H as [|d ds [_ E] H IH]; [reflexivity|]. cbn [flat_map]. rewrite IH, E. destruct (id_eqb_spec p p); [reflexivity|congruence]. }
        assert (E2 : flat_map (fun d => if id_eqb (fst (snd d)) p then snd (snd d) else []) (concat dss) = []).
        { clear - NI F. induction F as [|[q m'] ds ps dss (_ & H & _) F IH]; [reflexivity|]. cbn [map fst In] in NI. cbn [concat]. rewrite flat_map_app, IH by tauto. rewrite app_nil_r. cbn [fst] in H.
          assert (D : q <> p) by tauto. clear - H D. induction H as [|d ds [_ E] H IH]; [reflexivity|]. cbn [flat_map]. rewrite IH, E. destruct (id_eqb_spec q p); [congruence|reflexivity]. }
        rewrite E1, E2, app_nil_r. exact G.
      - assert (E1 : flat_map (fun d => if id_eqb (fst (snd d)) p then snd (snd d) else []) ds = []).
        { assert (D : q <> p) by (intros ->; apply NI, in_map_iff; exists (p, l); auto).
          clear - H D. induction H as [|d ds [_ E] H IH]; [reflexivity|]. cbn [flat_map]. rewrite IH, E. destruct (id_eqb_spec q p); [congruence|reflexivity]. }
        rewrite E1. apply IH; assumption. }
    destruct B as [m' B1 B2]. exists m'; [eapply perm_trans; eassumption|exact B2].
Qed.

Lemma reordered_perm {A} (R : A -> A -> Prop) l l' m : Permutation l l' -> reordered R l' m -> reordered R l m.
Proof.
  intros P [m' Q F]. destruct (Forall2_perm_l R l' l m' (Permutation_sym P) F) as (m2 & P2 & F2). exists m2; [eapply perm_trans; eassumption|exact F2].
Qed.
Lemma sort_key_perm {A} (key : A -> string) l : Permutation l (sort_key key l).
Proof.
  assert (S : forall x l, Permutation (x :: l) (insert_sorted key x l)).
  { intros x. induction l0 as [|y l0 IH]; [apply Permutation_refl|]. cbn [insert_sorted]. destruct (String.compare _ _); try apply Permutation_refl.
    eapply perm_trans; [apply perm_swap|]. constructor. exact IH. }
  induction l as [|x l IH]; [constructor|]. cbn [sort_key fold_right]. eapply perm_trans; [constructor; exact IH|]. apply S.
Qed.

(** ** Distinct elements *)
Lemma distinct_perm {A} (R : A -> A -> Prop) l m : (forall x y, R x y -> R y x) -> Permutation l m -> distinct R l -> distinct R m.
Proof.
  intros S P. unfold distinct. induction P; intros D.
  - exact D.
  - inversion D; subst. constructor; [|auto]. eapply Permutation_Forall; eassumption.
  - inversion D as [|? ? F D']; subst. inversion D' as [|? ? F' D'']; subst. inversion F; subst. constructor; [|constructor; assumption].
    constructor; [intros X; auto|assumption].
  - auto.
Qed.
Lemma distinct_related {A} (R : A -> A -> Prop) l m : (forall x y, R x y -> R y x) -> (forall x y z, R x y -> R y z -> R x z) ->
  Forall2 R l m -> distinct R l -> distinct R m.
Proof.
  intros S T F. unfold distinct. induction F as [|x y l m H F IH]; intros D; [constructor|]. inversion D as [|? ? G D']; subst. constructor; [|auto].
  clear IH D D'. induction F as [|a b l m H' F IH]; constructor.
  - inversion G; subst. intros X. eauto.
  - inversion G; subst. auto.
Qed.
Lemma distinct_reordered {A} (R : A -> A -> Prop) l m : (forall x y, R x y -> R y x) -> (forall x y z, R x y -> R y z -> R x z) ->
  reordered R l m -> distinct R l -> distinct R m.
Proof. intros S T [m' P F] D. apply (distinct_perm R m' m S (Permutation_sym P)), (distinct_related R l m' S T F D). Qed.
Lemma reordered_Forall {A} (R : A -> A -> Prop) (P Q : A -> Prop) l m : (forall x y, In x l -> R x y -> P x -> Q y) -> reordered R l m -> Forall P l -> Forall Q m.
Proof.
  intros H [m' E F] G. eapply Permutation_Forall; [apply Permutation_sym, E|]. clear E. induction F as [|x y l m' X F IH]; constructor.
  - inversion G; subst. eapply H; [left; reflexivity|exact X|assumption].
  - inversion G; subst. apply IH; [|assumption]. intros a b I. apply H. right. exact I.
Qed.
Lemma reordered_keys {A} (S : A -> A -> Prop) (l m : list (id * A)) : reordered (fun p q => fst p = fst q /\ S (snd p) (snd q)) l m ->
  NoDup (map fst l) -> NoDup (map fst m).
Proof.
  intros [m' P F] N. eapply Permutation_NoDup; [apply Permutation_sym, Permutation_map, P|]. clear P.
  replace (map fst m') with (map fst l); [exact N|]. clear N. induction F as [|x y l m' [E _] F IH]; [reflexivity|]. cbn [map]. congruence.
Qed.
Lemma same_wf_both : (forall a b, same a b -> wf a -> wf b) /\ (forall a b, same_node a b -> wf_node a -> wf_node b).
Proof.
  apply (obj_node_ind (fun a => forall b, same a b -> wf a -> wf b) (fun a => forall b, same_node a b -> wf_node a -> wf_node b)).
  - intros v b H _. inversion H; subst. constructor.
  - intros n IH b H W. inversion H; subst. inversion W; subst. constructor. eauto.
  - intros l IH b H W. inversion H as [| |? m F]; subst. inversion W as [| |? G]; subst. constructor. clear H W.
    induction F as [|x y l m [E X] F IHF]; constructor; inversion IH; inversion G; subst; eauto.
  - intros i ts g inc ps rs Hg Hi Hp Hr b H W. inversion H as [? ? ts' ? g' ? inc' ? ps' ? rs' Ht Bg Bi Op Br]; subst.
    inversion W as [? ? ? ? ? ? W1 W2 W3 W4 W5 W6 W7 W8]; subst. constructor.
    + destruct Bg as [|x y B]; [constructor|]. eapply reordered_Forall; [|exact B|exact W1]. cbn. intros u v I [_ X] Wu. exact (Forall_in _ _ _ Hg I _ X Wu).
    + destruct Bg as [|x y B]; [constructor|]. eapply (distinct_reordered same_i); [apply same_i_sym|apply same_i_trans|exact B|exact W2].
    + destruct Bi as [|x y B]; [constructor|]. eapply reordered_Forall; [|exact B|exact W3]. cbn. intros u v I [_ X] Wu. exact (Forall_in _ _ _ Hi I _ X Wu).
    + destruct Bi as [|x y B]; [constructor|]. eapply (distinct_reordered same_in); [apply same_in_sym|apply same_in_trans|exact B|exact W4].
    + eapply (reordered_keys _ ps ps'); eassumption.
    + eapply reordered_Forall; [|exact Op|exact W6]. cbn. intros u v I [_ X] Wu. eapply reordered_Forall; [|exact X|exact Wu]. cbn. intros a b J [_ Y] Wa.
      exact (Forall_in _ _ _ (Forall_in _ _ _ Hp I) J _ Y Wa).
    + destruct Br as [|x y B]; [constructor|]. eapply (reordered_keys _ x y); eassumption.
    + destruct Br as [|x y B]; [constructor|]. eapply reordered_Forall; [|exact B|exact W8]. cbn. intros u v I [_ X] Wu. eapply reordered_Forall; [|exact X|exact Wu]. cbn. intros a b J [_ Y] Wa.
      exact (Forall_in _ _ _ (Forall_in _ _ _ Hr I) J _ Y Wa).
Qed.

(** ** Maps of groups *)

(** [xs] are the members of the groups of the map [m]; [H k v ys]: the value [v] of the key [k]
    stands for the members [ys]. *)
Definition grouped {A} (H : string -> json -> list A -> Prop) (m : jobject) (xs : list A) : Prop :=
  exists f, NoDup (keys m) /\ (forall k v, assoc k m = Some v -> H k v (f k)) /\ (forall k, assoc k m = None -> f k = []) /\
    Permutation xs (flat_map f (keys m)).
Lemma grouped_nil {A} (H : string -> json -> list A -> Prop) : grouped H [] [].
Proof. exists (fun _ => []). split; [constructor|]. split; [discriminate|]. split; [reflexivity|constructor]. Qed.
Lemma flat_map_at {A B} (f g : A -> list B) l : (forall x, In x l -> f x = g x) -> flat_map f l = flat_map g l.
Proof. induction l as [|x l IH]; intros H; [reflexivity|]. cbn [flat_map]. rewrite (H x), IH; [reflexivity| |left; reflexivity]. intros y I. apply H. right. exact I. Qed.
Lemma flat_map_perm {A B} (f : A -> list B) l l' : Permutation l l' -> Permutation (flat_map f l) (flat_map f l').
Proof. apply Permutation_flat_map. Qed.
Lemma flat_map_perms {A B} (f g : A -> list B) l : (forall x, In x l -> Permutation (f x) (g x)) -> Permutation (flat_map f l) (flat_map g l).
Proof. induction l as [|x l IH]; intros H; [constructor|]. cbn [flat_map]. apply Permutation_app; [apply H; left; reflexivity|]. apply IH. intros y I. apply H. right. exact I. Qed.
(** One more member, under the key [k]. *)
Lemma grouped_more {A} (H : string -> json -> list A -> Prop) m m' xs k x : grouped H m xs -> NoDup (keys m') ->
  (forall k', k' <> k -> assoc k' m' = assoc k' m) ->
  (forall ys, (forall v, assoc k m = Some v -> H k v ys) -> (assoc k m = None -> ys = []) -> exists v', assoc k m' = Some v' /\ H k v' (ys ++ [x])) ->
  grouped H m' (xs ++ [x]).
Proof.
  intros (f & N & V & F & P) N' O S. destruct (S (f k) (V k) (F k)) as (v' & AE & Hv).
  exists (fun k' => if streq k' k then f k ++ [x] else f k'). split; [exact N'|]. split; [|split].
  - intros k' v E. destruct (streq_spec k' k) as [->|D]; [congruence|]. apply V. rewrite <- O by exact D. exact E.
  - intros k' E. destruct (streq_spec k' k) as [->|D]; [congruence|]. apply F. rewrite <- O by exact D. exact E.
  - unfold keys in *. assert (IK : forall k', In k' (map fst m') <-> k' = k \/ In k' (map fst m)).
    { intros k'. rewrite !in_keys_assoc. destruct (streq_spec k' k) as [->|D].
      - split; [auto|]. intros _. eauto.
      - rewrite O by exact D. split; [auto|]. intros [E|E]; [contradiction|exact E]. }
    assert (OT : flat_map (fun k' => if streq k' k then f k ++ [x] else f k') (filter (fun k' => negb (streq k' k)) (map fst m)) = flat_map f (filter (fun k' => negb (streq k' k)) (map fst m))).
    { apply flat_map_at. intros k' I. apply filter_In in I. destruct I as [_ I]. destruct (streq k' k); [discriminate|reflexivity]. }
    assert (PM : Permutation (map fst m') (k :: filter (fun k' => negb (streq k' k)) (map fst m))).
    { apply NoDup_Permutation; [exact N'|constructor; [intros I; apply filter_In in I; rewrite streq_refl in I; destruct I; discriminate|apply NoDup_filter, N]|].
      intros k'. rewrite IK. cbn [In]. rewrite filter_In. destruct (streq_spec k' k) as [->|D]; cbn [negb]; intuition congruence. }
    apply (flat_map_perm (fun k' => if streq k' k then f k ++ [x] else f k')) in PM. eapply perm_trans; [|apply Permutation_sym, PM]. clear PM.
    cbn [flat_map]. rewrite streq_refl, OT. clear OT.
    assert (PO : Permutation (flat_map f (map fst m)) (f k ++ flat_map f (filter (fun k' => negb (streq k' k)) (map fst m)))).
    { destruct (assoc k m) as [v|] eqn:E.
      - change (f k ++ flat_map f (filter (fun k' => negb (streq k' k)) (map fst m))) with (flat_map f (k :: filter (fun k' => negb (streq k' k)) (map fst m))).
        apply flat_map_perm, NoDup_Permutation; [exact N|constructor; [intros I; apply filter_In in I; rewrite streq_refl in I; destruct I; discriminate|apply NoDup_filter, N]|].
        intros k'. cbn [In]. rewrite filter_In. destruct (streq_spec k' k) as [->|D]; cbn [negb].
        + split; [auto|]. intros _. apply in_keys_assoc. eauto.
        + split; [auto|]. intros [X|[X _]]; [congruence|exact X].
      - rewrite (F k E). cbn [app]. apply assoc_None_notin in E. unfold keys in E.
        assert (Q : filter (fun k' => negb (streq k' k)) (map fst m) = map fst m); [|rewrite Q; apply Permutation_refl].
        clear -E. induction (map fst m) as [|y l IH]; [reflexivity|]. cbn [filter In] in *. destruct (streq_spec y k) as [->|_]; [tauto|]. cbn [negb]. rewrite IH by tauto. reflexivity. }
    eapply perm_trans; [apply Permutation_app_tail; eapply perm_trans; [exact P|exact PO]|]. rewrite <- !app_assoc. apply Permutation_app_head, Permutation_app_comm.
Qed.
Lemma choose {A} (R : string -> A -> Prop) (d : A) ks : (forall k, In k ks -> exists z, R k z) -> exists g, forall k, In k ks -> R k (g k).
Proof.
  induction ks as [|k ks IH]; intros H; [exists (fun _ => d); intros k []|]. destruct (IH (fun k' I => H k' (or_intror I))) as [g G]. destruct (H k (or_introl eq_refl)) as [z Z].
  exists (fun k' => if streq k' k then z else g k'). intros k' I. destruct (streq_spec k' k) as [->|D]; [exact Z|]. destruct I as [->|I]; [congruence|]. exact (G _ I).
Qed.
(** The values are replaced by what they give, in some order. *)
Lemma grouped_taken {A} (H G : string -> json -> list A -> Prop) m xs : grouped H m xs ->
  (forall k v ys, assoc k m = Some v -> H k v ys -> exists zs, Permutation ys zs /\ G k v zs) -> grouped G m xs.
Proof.
  intros (f & N & V & F & P) T.
  destruct (choose (fun k zs => Permutation (f k) zs /\ forall v, assoc k m = Some v -> G k v zs) [] (keys m)) as [g Hg].
  { intros k I. apply in_keys_assoc in I. destruct I as [v E]. destruct (T k v (f k) E (V k v E)) as (zs & Pz & Gz). exists zs. split; [exact Pz|]. intros v' E'. congruence. }
  exists (fun k => match assoc k m with Some _ => g k | None => [] end). split; [exact N|]. split; [|split].
  - intros k v E. rewrite E. apply (Hg k); [|exact E]. apply in_keys_assoc. eauto.
  - intros k E. rewrite E. reflexivity.
  - eapply perm_trans; [exact P|]. apply flat_map_perms. intros k I. destruct (Hg k I) as [Pk _]. apply in_keys_assoc in I. destruct I as [v E]. rewrite E. exact Pk.
Qed.
(** A value that is no array, added. *)
Lemma kadd_one m k j b m' : NoDup (keys m) -> is_array j = false -> kadd m k j b = Ok m' ->
  NoDup (keys m') /\ (forall k', k' <> k -> assoc k' m' = assoc k' m) /\
  exists v', assoc k m' = Some v' /\ force_array v' = match assoc k m with Some v => force_array v | None => [] end ++ [j].
Proof.
  intros N A. unfold kadd. destruct (add_value_ok j m k b N) as (m1 & -> & N1 & V1 & O1 & _). intros H. injection H as <-. split; [exact N1|]. split; [exact O1|].
  unfold values_of in V1. assert (L : leaves j = [j]) by (destruct j; reflexivity || discriminate). rewrite L in V1.
  assert (FA : forall v, match v with JArr l => l | _ => [v] end = force_array v) by (intros []; reflexivity).
  destruct (assoc k m1) as [v'|] eqn:E.
  - exists v'. split; [reflexivity|]. rewrite <- FA, V1. destruct (assoc k m) as [v|]; [rewrite FA|]; reflexivity.
  - destruct (assoc k m) as [[| | | |l|]|]; try discriminate. symmetry in V1. apply app_eq_nil in V1. destruct V1; discriminate.
Qed.
Lemma in_map_app k m0 mp f m' : ~ In k (keys m0) -> in_map (m0 ++ mp) k f = Ok m' -> exists mp', m' = m0 ++ mp' /\ in_map mp k f = Ok mp'.
Proof.
  intros H. unfold in_map, kget. rewrite get_unique_app by exact H. destruct (get_unique k mp) as [[v|]|]; cbn [bind]; try discriminate.
  - destruct v as [| | | | |x]; try discriminate. destruct (f x) as [y|]; cbn [bind]; [|discriminate]. intros E. injection E as <-. rewrite insert_app by exact H. eauto.
  - destruct (f []) as [y|]; cbn [bind]; [|discriminate]. intros E. injection E as <-. rewrite insert_app by exact H. eauto.
Qed.
Lemma in_map_one k m f m' : NoDup (keys m) -> in_map m k f = Ok m' ->
  exists x x', (assoc k m = Some (JObj x) \/ assoc k m = None /\ x = []) /\ f x = Ok x' /\ m' = insert k (JObj x') m.
Proof.
  intros N. unfold in_map, kget. rewrite (get_unique_nodup k m N). destruct (assoc k m) as [v|] eqn:E; cbn [bind].
  - destruct v as [| | | | |x]; try discriminate. destruct (f x) as [y|] eqn:F; cbn [bind]; [|discriminate]. intros X. injection X as <-. exists x, y. auto.
  - destruct (f []) as [y|] eqn:F; cbn [bind]; [|discriminate]. intros X. injection X as <-. exists [], y. auto.
Qed.
Lemma insert_one k v (m : jobject) : NoDup (keys m) ->
  NoDup (keys (insert k v m)) /\ (forall k', k' <> k -> assoc k' (insert k v m) = assoc k' m) /\ assoc k (insert k v m) = Some v.
Proof.
  intros N. split; [apply nodup_insert, N|]. split.
  - intros k' D. rewrite assoc_insert. destruct (streq_spec k' k); [contradiction|reflexivity].
  - rewrite assoc_insert, streq_refl. reflexivity.
Qed.

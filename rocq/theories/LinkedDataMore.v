(** Linked data: repeated predicates, types and first items. *)
From Verif Require Import Prelude Json Enums LangTag LangString Str Keyword Container ContextSyntax Ctx
  Object ObjectEq ObjectJson CompactIri Expand Rdf LinkedData LinkedDataProofs.

(** ** Specification *)

(** The identifiers of the objects that are nothing but an identifier. *)
Definition references (os : list obj) : list id :=
  flat_map (fun o => match o with ONode (MkNode (Some i) None None None [] None) => [i] | _ => [] end) os.
(** The last of the entries with a key. *)
Definition is_last {A} (p : id) (x : A) (es : list (id * A)) : Prop := exists a b, es = a ++ (p, x) :: b /\ ~ In p (map fst b).

(** ** Proofs *)
Lemma is_last_snoc {A} p (x : A) es k y : is_last p x (es ++ [(k, y)]) <-> (p = k /\ x = y) \/ (p <> k /\ is_last p x es).
Proof.
  split.
  - intros (a & b & E & N). destruct b as [|e b _] using rev_ind.
    + apply app_inj_tail in E. destruct E as [_ E]. injection E as -> ->. auto.
    + rewrite app_comm_cons, app_assoc in E. apply app_inj_tail in E. destruct E as [-> <-]. rewrite map_app, in_app_iff in N. cbn in N.
      right. split; [intros ->; tauto|]. exists a, b. tauto.
  - intros [[-> ->]|[D (a & b & -> & N)]]; [exists es, []; auto|]. exists a, (b ++ [(k, y)]). split; [rewrite <- app_assoc; reflexivity|].
    rewrite map_app, in_app_iff. cbn. intuition congruence.
Qed.
Lemma set_key_keys {A} k (v : A) l x : In x (map fst (set_key k v l)) <-> x = k \/ In x (map fst l).
Proof.
  induction l as [|[k' w] l IH]; cbn [set_key map fst In]; [intuition|]. destruct (id_eqb_spec k k') as [->|D]; cbn [map fst In]; [intuition|]. rewrite IH. intuition.
Qed.
Lemma set_key_nodup {A} k (v : A) l : NoDup (map fst l) -> NoDup (map fst (set_key k v l)).
Proof.
  induction l as [|[k' w] l IH]; cbn [set_key map fst]; intros N; [repeat constructor; auto|]. inversion N as [|? ? NI N']; subst.
  destruct (id_eqb_spec k k') as [->|D]; cbn [map fst]; constructor; auto. rewrite set_key_keys. intuition congruence.
Qed.
Lemma set_key_in {A} k (v : A) l p x : NoDup (map fst l) -> In (p, x) (set_key k v l) <-> (p = k /\ x = v) \/ (p <> k /\ In (p, x) l).
Proof.
  induction l as [|[k' w] l IH]; cbn [set_key map fst]; intros N; [cbn; intuition congruence|]. inversion N as [|? ? NI N']; subst.
  destruct (id_eqb_spec k k') as [->|D]; cbn [In].
  - assert (X : In (k', x) l -> False) by (intros I; apply NI; apply in_map_iff; exists (k', x); auto).
    split; [intros [E|I]; [injection E as <- <-; auto|destruct (id_eqb_spec p k') as [->|]; [tauto|auto]]|intros [[-> ->]|[D [E|I]]]; [auto|congruence|auto]].
  - rewrite (IH N'). split; [intros [E|[[-> ->]|[D' I]]]; [injection E as <- <-; right; split; [congruence|auto]|auto|auto]|intros [[-> ->]|[D' [E|I]]]; auto].
Qed.

Lemma map_r_map {A B C E} (f : B -> result C E) (g : A -> B) l : map_r f (map g l) = map_r (fun x => f (g x)) l.
Proof. induction l as [|x l IH]; [reflexivity|]. cbn [map map_r]. rewrite IH. reflexivity. Qed.

Section More.
Variable io : ldops.
Variables (fin rnd : list word -> N).
Notation ser := (ser io fin rnd).
Notation serialize_object := (serialize_object io fin rnd).

Lemma type_value_spec o : type_value o = match o with ONode (MkNode (Some i) None None None [] None) => Some i | _ => None end.
Proof. destruct o as [v|[i [ts|] [g|] [inc|] [|p ps] [rs|]]|l]; try reflexivity; try (destruct i; reflexivity). Qed.
Lemma as_types_spec os : as_types (map bare_obj os) = references os.
Proof.
  unfold as_types, references. rewrite flat_map_concat_map, map_map, <- flat_map_concat_map. apply flat_map_ext. intros o. unfold bare_obj. cbn [snd]. rewrite type_value_spec.
  destruct o as [v|[i [ts|] [g|] [inc|] [|p ps] [rs|]]|l]; try reflexivity; destruct i; reflexivity.
Qed.
Definition add_all (es : list (id * list obj)) (n : node) : node := fold_left (fun n e => add_objects (fst e) (map bare_obj (snd e)) n) es n.
Lemma pred_visits ps : forall n n', fold_r (node_visit fin rnd) n (results io fin rnd (map (fun e : id * list subj => (EPred (Some (DId (fst e))), snd e)) ps)) = Ok n' ->
  exists es, Forall2 (fun e x => fst x = fst e /\ map_r serialize_object (snd e) = Ok (snd x)) ps es /\ n' = add_all es n.
Proof.
  induction ps as [|[p os] ps IH]; intros n n' H.
  - injection H as <-. exists []. split; constructor.
  - cbn [map results fold_r] in H. unfold results in H. cbn [map fold_r fst snd] in H. unfold node_visit at 1 in H. cbn [pred_id bind] in H.
    unfold ser_objects in H. rewrite map_r_map in H.
    destruct (map_r (fun x => r_object (ser x)) os) as [l|] eqn:E; cbn [bind] in H; [|discriminate].
    destruct (IH _ _ H) as (es & F & ->). exists ((p, l) :: es). split; [constructor; [split; [reflexivity|exact E]|exact F]|reflexivity].
Qed.
Lemma add_all_spec es i : let n := add_all es (node_new (Some i)) in
  n_id n = Some i /\ n_graph n = None /\ n_included n = None /\ n_reverse n = None /\
  NoDup (map fst (n_props n)) /\
  opt_list (n_types n) = flat_map (fun e => if id_eqb (fst e) (IIri (rdf "type")) then references (snd e) else []) es /\
  forall p l, p <> IIri (rdf "type") -> (In (p, l) (n_props n) <-> exists os, is_last p os es /\ l = map bare_obj os).
Proof.
  induction es as [|[k os] es IH] using rev_ind.
  - cbn. repeat split; try constructor. { intros []. } intros (os & (a & b & E & _) & _). destruct a; discriminate.
  - cbn zeta in *. unfold add_all in *. rewrite fold_left_app. cbn [fold_left fst snd]. set (n := fold_left _ es (node_new (Some i))) in *.
    destruct n as [i' ts g inc ps rs]. cbn [n_id n_graph n_included n_reverse n_props n_types] in IH. destruct IH as (-> & -> & -> & -> & N & T & P).
    rewrite flat_map_app. cbn [flat_map fst snd]. rewrite app_nil_r. unfold add_objects. destruct (is_iri k (rdf "type")) eqn:K.
    + apply is_iri_spec in K. subst k. destruct (id_eqb_spec (IIri (rdf "type")) (IIri (rdf "type"))) as [_|X]; [|congruence].
      cbn [on_types on_props n_id n_graph n_included n_reverse n_props n_types]. rewrite as_types_spec.
      repeat split; try reflexivity.
      * destruct (not_types _); [exact N|apply set_key_nodup; exact N].
      * rewrite <- T. unfold push_types. destruct (references os); [rewrite app_nil_r; reflexivity|reflexivity].
      * intros I. assert (I' : In (p, l) ps) by (destruct (not_types _) in I; [exact I|apply set_key_in in I; [|exact N]; destruct I as [[X _]|[_ I]]; [congruence|exact I]]).
        apply P in I'; [|assumption]. destruct I' as (os' & L & E). exists os'. split; [apply is_last_snoc; auto|exact E].
      * intros (os' & L & E). apply is_last_snoc in L. destruct L as [[X _]|[_ L]]; [congruence|].
        assert (I' : In (p, l) ps) by (apply P; [assumption|exists os'; auto]). destruct (not_types _); [exact I'|apply set_key_in; [exact N|auto]].
    + destruct (id_eqb_spec k (IIri (rdf "type"))) as [->|D]; [rewrite (proj2 (is_iri_spec _ _) eq_refl) in K; discriminate|].
      cbn [on_types on_props n_id n_graph n_included n_reverse n_props n_types]. rewrite app_nil_r. repeat split; try reflexivity; try assumption.
      * apply set_key_nodup. exact N.
      * intros I. apply set_key_in in I; [|exact N]. destruct I as [[-> ->]|[D' I]]; [exists os; split; [apply is_last_snoc; auto|reflexivity]|].
        apply P in I; [|assumption]. destruct I as (os' & L & E). exists os'. split; [apply is_last_snoc; auto|exact E].
      * intros (os' & L & E). apply is_last_snoc in L. apply set_key_in; [exact N|]. destruct L as [[-> ->]|[D' L]]; [auto|]. right. split; [exact D'|]. apply P; [assumption|]. exists os'. auto.
Qed.
Lemma first_last os : forall f l o, map_r serialize_object os = Ok (l ++ [o]) -> fold_r (fun _ x => do y <- r_object x ; Ok (Some y)) f (map ser os) = Ok (Some o).
Proof.
  induction os as [|s os IH]; intros f l o H; cbn [map_r] in H; [destruct l; discriminate|]. cbn [map fold_r]. unfold LinkedData.serialize_object in H at 1.
  destruct (r_object (ser s)) as [x|]; cbn [bind] in *; [|discriminate]. destruct (map_r serialize_object os) as [l'|] eqn:E; cbn [bind] in H; [|discriminate]. injection H as H.
  destruct os as [|s' os]; [injection E as <-; destruct l as [|? [|? ?]]; try discriminate; injection H as <-; reflexivity|].
  destruct l as [|y l]; [injection H as _ H; subst l'; cbn [map_r] in E; destruct (serialize_object s'); [|discriminate]; cbn in E; destruct (map_r serialize_object os); discriminate|].
  injection H as _ H. subst l'. apply (IH _ l). reflexivity.
Qed.
Lemma first_objects os l o : map_r serialize_object os = Ok (l ++ [o]) ->
  serialize_object (MkSubj None [(iri_pred (rdf "first"), os)]) =
  Ok (ONode (MkNode None None None None [(IIri (rdf "first"), map (fun x => (None, x)) (l ++ [o; o]))] None)).
Proof.
  intros H. unfold LinkedData.serialize_object. rewrite ser_eq. cbn [ser_of r_object results map fst snd]. unfold visit_object. cbn [fold_r].
  rewrite object_visit_first. unfold ser_first. rewrite (first_last _ _ _ _ H). cbn [bind]. unfold ser_objects. rewrite map_r_map.
  unfold LinkedData.serialize_object in H. rewrite H. cbn [bind]. unfold object_end, add_objects, node_new, on_props. cbn -[map app bare_obj rdf]. 
  change (streq (rdf "first") (rdf "type")) with false. cbn iota. cbn [insert_all]. destruct (id_eqb_spec (IIri (rdf "first")) (IIri (rdf "first"))) as [_|X]; [|congruence].
  do 4 f_equal. unfold bare_obj. rewrite !map_app. cbn [map]. rewrite <- app_assoc. reflexivity.
Qed.
End More.

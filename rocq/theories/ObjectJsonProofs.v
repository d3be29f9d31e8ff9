(** The JSON form of a printable object is read back as this object. *)
From Verif Require Import Prelude Json Enums LangTag LangString Str Keyword Container ContextSyntax Ctx Process Object ObjectEq ObjectJson.

(** ** Objects *)
Lemma insert_app k v l : ~ In k (keys l) -> insert k v l = l ++ [(k, v)].
Proof.
  induction l as [|[k' w] l IH]; cbn; intros H; [reflexivity|].
  destruct (streq_spec k' k) as [->|N]; [tauto|]. rewrite IH by tauto. reflexivity.
Qed.
Lemma keys_app {A} (l m : list (string * A)) : keys (l ++ m) = keys l ++ keys m.
Proof. apply map_app. Qed.
Lemma fold_insert {A} (key : A -> string) (val : A -> json) ps : forall m,
  NoDup (map key ps) -> (forall p, In p ps -> ~ In (key p) (keys m)) ->
  fold_left (fun m p => insert (key p) (val p) m) ps m = m ++ map (fun p => (key p, val p)) ps.
Proof.
  induction ps as [|p ps IH]; cbn; intros m D H; [rewrite app_nil_r; reflexivity|]. inversion D as [|? ? NI D']; subst.
  rewrite insert_app by (apply H; left; reflexivity). rewrite IH; [rewrite <- app_assoc; reflexivity|exact D'|].
  intros q I. rewrite keys_app. intros J. apply in_app_or in J. destruct J as [J|[E|[]]].
  - apply (H q); [right; exact I|exact J].
  - cbn in E. apply NI. rewrite E. apply in_map, I.
Qed.
Lemma remove_unique_none k m : ~ In k (keys m) -> remove_unique k m = Ok (None, m).
Proof.
  intros H. unfold remove_unique, get_unique. rewrite (proj2 (get_all_nil k m) H), remove_key_notin by exact H. reflexivity.
Qed.
Lemma remove_unique_head k v m : ~ In k (keys m) -> remove_unique k ((k, v) :: m) = Ok (Some v, m).
Proof.
  intros H. unfold remove_unique, get_unique, get_all, remove_key. cbn. rewrite streq_refl. cbn.
  pose proof (proj2 (get_all_nil k m) H) as G. unfold get_all in G. rewrite G. f_equal. f_equal. apply (remove_key_notin k m H).
Qed.
Lemma remove_unique_last k v m : ~ In k (keys m) -> remove_unique k (m ++ [(k, v)]) = Ok (Some v, m).
Proof.
  intros H. unfold remove_unique, get_unique, get_all, remove_key. rewrite !filter_app, map_app. cbn. rewrite streq_refl. cbn.
  pose proof (proj2 (get_all_nil k m) H) as G. unfold get_all in G. rewrite G. cbn. rewrite app_nil_r. f_equal. f_equal. apply (remove_key_notin k m H).
Qed.
Lemma index_parse {A} (f : jobject -> result A jerr) i m : ~ In "@index" (keys m) ->
  indexed_of_json f (with_index i (JObj m)) = do x <- f m ; Ok (i, x).
Proof.
  intros H. unfold indexed_of_json, with_index. destruct i as [i|].
  - rewrite insert_app, remove_unique_last by exact H. reflexivity.
  - rewrite remove_unique_none by exact H. reflexivity.
Qed.
Lemma map_r_map {A B E} (f : B -> result A E) (g : A -> B) l : Forall (fun x => f (g x) = Ok x) l -> map_r f (map g l) = Ok l.
Proof. induction 1 as [|x l H F IH]; cbn; [reflexivity|]. rewrite H, IH. reflexivity. Qed.

(** Sizes. *)
Lemma list_sum_in {A} (f : A -> nat) l x : In x l -> f x <= list_sum (map f l).
Proof.
  induction l as [|y l IH]; [intros []|]. change (list_sum (map f (y :: l))) with (f y + list_sum (map f l)).
  intros [->|I]; [lia|]. specialize (IH I). lia.
Qed.
Lemma json_pos j : 1 <= json_size j. Proof. destruct j; cbn; lia. Qed.
Lemma size_arr l x : In x l -> json_size x < json_size (JArr l).
Proof. intros I. pose proof (list_sum_in json_size l x I). change (json_size (JArr l)) with (S (list_sum (map json_size l))). lia. Qed.
Lemma size_obj m k x : In (k, x) m -> json_size x < json_size (JObj m).
Proof.
  intros I. pose proof (list_sum_in (fun e : string * json => json_size (snd e)) m (k, x) I) as H. cbn beta iota delta [snd] in H.
  change (json_size (JObj m)) with (S (list_sum (map (fun e => json_size (snd e)) m))). lia.
Qed.
Lemma size_remove k m : list_sum (map (fun e => json_size (snd e)) (remove_key k m)) <= list_sum (map (fun e => json_size (snd e)) m).
Proof.
  unfold remove_key. induction m as [|e m IH]; [apply le_n|]. cbn [filter].
  destruct (negb (streq (fst e) k)); cbn [map list_sum fold_right] in *; unfold list_sum in *; lia.
Qed.
Lemma index_size i m : ~ In "@index" (keys m) -> json_size (JObj m) <= json_size (with_index i (JObj m)).
Proof.
  intros N. destruct i as [i|]; [|apply le_n]. unfold with_index. rewrite insert_app by exact N.
  change (S (list_sum (map (fun e : string * json => json_size (snd e)) m)) <= S (list_sum (map (fun e : string * json => json_size (snd e)) (m ++ [("@index", JStr i)])))).
  rewrite map_app, list_sum_app. lia.
Qed.

Lemma chain a b c n : a < b -> b < c -> c <= S n -> a <= n. Proof. lia. Qed.

Section RoundTrip.
  Variable io : iops.
  Variables (fin rnd : list word -> N).
  Notation pr := (printable io).
  Notation prn := (printable_node io).

  Lemma readable_nodup {A} (ps : list (id * A)) : Forall (fun p => readable io (fst p)) ps -> NoDup (map fst ps) -> NoDup (map (fun p => id_str (fst p)) ps).
  Proof.
    induction ps as [|p ps IH]; cbn; intros F D; [constructor|]. inversion F as [|? ? Rp F']; inversion D as [|? ? NI D']; subst.
    constructor; [|apply IH; assumption]. intros I. apply NI. apply in_map_iff in I. destruct I as (q & E & I).
    apply in_map_iff. exists q. split; [|exact I]. rewrite <- Rp, <- (Forall_in _ _ _ F' I), E. reflexivity.
  Qed.

  Lemma id_parse i : readable io i -> id_of_json io (id_json i) = Ok i.
  Proof. intros H. cbn. rewrite H. reflexivity. Qed.

  Lemma set_insert_all {A} (h : A -> N) (e : A -> A -> bool) (R : A -> A -> Prop) l : forall s,
    (forall x y, In x (s ++ l) -> In y (s ++ l) -> e x y = true -> R x y) -> distinct R (s ++ l) -> fold_left (set_insert h e) l s = s ++ l.
  Proof.
    induction l as [|x l IH]; cbn; intros s H D; [rewrite app_nil_r; reflexivity|].
    assert (S : set_insert h e s x = s ++ [x]).
    { unfold set_insert. destruct (existsb (fun y => N.eqb (h y) (h x) && e y x) s) eqn:E; [|reflexivity]. exfalso.
      apply existsb_exists in E. destruct E as (y & I & E). apply andb_true_iff in E.
      apply in_split in I. destruct I as (s1 & s2 & ->).
      assert (R y x). { apply H; [apply in_or_app; left; apply in_elt|apply in_elt|tauto]. }
      rewrite <- app_assoc in D. clear -D H0. induction s1 as [|z s1 IH]; cbn in D; inversion D as [|? ? F D']; subst; [|auto].
      apply (Forall_in _ _ x F); [|exact H0]. apply in_elt. }
    rewrite S, IH; rewrite <- app_assoc; [reflexivity|exact H|exact D].
  Qed.

  Lemma insert_all_new {A} k (v : list A) l : ~ In k (map fst l) -> insert_all k v l = l ++ [(k, v)].
  Proof.
    induction l as [|[k' w] l IH]; cbn; intros H; [reflexivity|]. destruct (id_eqb_spec k k') as [->|N]; [tauto|].
    rewrite IH by tauto. reflexivity.
  Qed.
  Lemma fold_insert_all {A} (ps : list (id * list A)) : forall l, NoDup (map fst (l ++ ps)) ->
    fold_left (fun r p => insert_all (fst p) (snd p) r) ps l = l ++ ps.
  Proof.
    induction ps as [|[k v] ps IH]; cbn; intros l D; [rewrite app_nil_r; reflexivity|].
    rewrite insert_all_new.
    - rewrite IH; rewrite <- app_assoc; [reflexivity|exact D].
    - rewrite map_app in D. apply NoDup_remove_2 in D. intros I. apply D, in_or_app. left. exact I.
  Qed.
  Lemma props_parse {A} (f : json -> result A jerr) (g : A -> json) (ps : list (id * list A)) :
    NoDup (map fst ps) -> Forall (fun p => readable io (fst p)) ps -> Forall (fun p => Forall (fun x => f (g x) = Ok x) (snd p)) ps ->
    props_of_json io f (map (fun p => (id_str (fst p), JArr (map g (snd p)))) ps) = Ok ps.
  Proof.
    intros D R F. unfold props_of_json.
    rewrite (map_r_map (fun e => do v <- list_of_json f (snd e) ; Ok (id_of_string io (fst e), v)) (fun p => (id_str (fst p), JArr (map g (snd p)))) ps).
    - cbn [bind]. rewrite (fold_insert_all ps []); [reflexivity|exact D].
    - apply Forall_forall. intros [k v] I. cbn. rewrite (map_r_map f g v) by exact (Forall_in _ _ _ F I). cbn.
      pose proof (Forall_in _ _ _ R I) as E. cbn in E. rewrite E. reflexivity.
  Qed.

  (** The entries of a node. *)
  Definition rev_entries (rs : list (id * list inode)) : jobject := map (fun p => (id_str (fst p), JArr (map inode_json (snd p)))) rs.
  Definition prop_entries (ps : list (id * list iobj)) : jobject := map (fun p => (id_str (fst p), JArr (map iobj_json (snd p)))) ps.
  Definition one (k : string) (o : option json) : jobject := match o with Some j => [(k, j)] | None => [] end.
  Definition head_entries (i : option id) (ts : option (list id)) (g : option (list iobj)) (rs : option (list (id * list inode))) : jobject :=
    one "@id" (option_map id_json i) ++ one "@type" (option_map (fun l => JArr (map id_json l)) ts)
    ++ one "@graph" (option_map (fun l => JArr (map iobj_json l)) g)
    ++ one "@reverse" (option_map (fun l => JObj (rev_entries l)) rs).
  Lemma node_entries i ts g ps rs : prn (MkNode i ts g None ps rs) -> wf_node (MkNode i ts g None ps rs) ->
    node_json (MkNode i ts g None ps rs) = JObj (head_entries i ts g rs ++ prop_entries ps).
  Proof.
    intros P W. inversion P as [? ? ? ? ? Pi Pt Pts Pg Pp Pr]; subst. inversion W as [? ? ? ? ? ? Wg Dg _ _ Np Wp Nr Wr]; subst. clear P W.
    assert (Rp : Forall (fun p => readable io (fst p)) ps) by (eapply Forall_impl; [|exact Pp]; intros p Hx; exact (proj1 Hx)).
    cbn [node_json].
    set (m1 := match i with Some i => insert "@id" (id_json i) [] | None => [] end).
    set (m2 := match ts with Some ((_ :: _) as ts) => insert "@type" (JArr (map id_json ts)) m1 | _ => m1 end).
    set (m3 := match g with Some g => insert "@graph" _ m2 | None => m2 end).
    match goal with |- context [match rs with Some rs => insert "@reverse" (@?X rs) m3 | None => m3 end] =>
      set (m4 := match rs with Some rs => insert "@reverse" (X rs) m3 | None => m3 end) end.
    assert (E4 : m4 = head_entries i ts g rs).
    { subst m4 m3 m2 m1. unfold head_entries. destruct rs as [rs|]; cbn [option_map one].
      - assert (E : fold_left (fun m p => insert (id_str (fst p)) (JArr (map (fun x => with_index (fst x) (node_json (snd x))) (snd p))) m) rs [] = rev_entries rs).
        { rewrite (fold_insert (fun p : id * list inode => id_str (fst p)) (fun p => JArr (map inode_json (snd p)))); [reflexivity| |intros ? _ []].
          apply readable_nodup; [|exact Nr]. eapply Forall_impl; [|exact Pr]; intros p Hx; exact (proj1 Hx). }
        cbn [opt_list] in *. rewrite E.
        destruct i, ts as [[|? ?]|], g; try congruence; reflexivity.
      - destruct i, ts as [[|? ?]|], g; try congruence; reflexivity. }
    rewrite E4. f_equal. rewrite (fold_insert (fun p : id * list iobj => id_str (fst p)) (fun p => JArr (map iobj_json (snd p)))); [reflexivity| |].
    - apply readable_nodup; assumption.
    - intros p I J. pose proof (Forall_in _ _ _ Pp I) as (_ & NR & _). apply NR.
      assert (forall x, In x (keys (head_entries i ts g rs)) -> In x reserved); [|auto].
      intros x. unfold head_entries. rewrite !keys_app. destruct i, ts, g, rs; cbn; intuition (subst; auto).
  Qed.

  Lemma prop_keys ps k : Forall (fun p => readable io (fst p) /\ ~ In (id_str (fst p)) reserved /\ Forall (fun x => pr (snd x)) (snd p)) ps ->
    In k reserved -> ~ In k (keys (prop_entries ps)).
  Proof.
    intros F R I. unfold keys, prop_entries in I. rewrite map_map in I. apply in_map_iff in I. destruct I as (p & <- & I).
    apply (Forall_in _ _ _ F I). exact R.
  Qed.

  Lemma step_some {A} k (f : json -> result A jerr) j x (m : jobject) {B} (K : option A * jobject -> result B jerr) :
    ~ In k (keys m) -> f j = Ok x ->
    (do (o, m) <- remove_unique k ((k, j) :: m) ; do o <- opt_r f o ; K (o, m)) = K (Some x, m).
  Proof. intros H E. rewrite remove_unique_head by exact H. cbn. rewrite E. reflexivity. Qed.

  Lemma not_in_app {A} (x : A) l m : ~ In x l -> ~ In x m -> ~ In x (l ++ m).
  Proof. intros H K I. apply in_app_or in I. tauto. Qed.

  Lemma node_parse pi pn i ts g ps rs : prn (MkNode i ts g None ps rs) -> wf_node (MkNode i ts g None ps rs) ->
    Forall (fun x => pi (iobj_json x) = Ok x) (opt_list g) ->
    Forall (fun p => Forall (fun x => pi (iobj_json x) = Ok x) (snd p)) ps ->
    Forall (fun p => Forall (fun x => pn (inode_json x) = Ok x) (snd p)) (opt_list rs) ->
    node_of_json io fin rnd pi pn (head_entries i ts g rs ++ prop_entries ps) = Ok (MkNode i ts g None ps rs).
  Proof.
    intros P W Hg Hp Hr. inversion P as [? ? ? ? ? Pi Pt Pts Pg Pp Pr]; subst. inversion W as [? ? ? ? ? ? Wg Dg _ _ Np Wp Nr Wr]; subst. clear P W.
    assert (Rp : Forall (fun p => readable io (fst p)) ps) by (eapply Forall_impl; [|exact Pp]; intros p Hx; exact (proj1 Hx)).
    assert (K : forall k, In k reserved -> ~ In k (keys (prop_entries ps))) by (intros k; apply prop_keys, Pp).
    unfold node_of_json, head_entries. rewrite <- !app_assoc.
    set (e5 := prop_entries ps) in *.
    set (e4 := one "@reverse" _ ++ e5). set (e3 := one "@graph" _ ++ e4). set (e2 := one "@type" _ ++ e3).
    assert (K4 : forall k, In k reserved -> k <> "@reverse" -> ~ In k (keys e4)).
    { intros k I N. subst e4. rewrite keys_app. apply not_in_app; [|apply K, I]. destruct rs; cbn; intuition congruence. }
    assert (K3 : forall k, In k reserved -> k <> "@reverse" -> k <> "@graph" -> ~ In k (keys e3)).
    { intros k I N N'. subst e3. rewrite keys_app. apply not_in_app; [|apply K4; assumption]. destruct g; cbn; intuition congruence. }
    assert (K2 : forall k, In k reserved -> k <> "@reverse" -> k <> "@graph" -> k <> "@type" -> ~ In k (keys e2)).
    { intros k I N N' N2. subst e2. rewrite keys_app. apply not_in_app; [|apply K3; assumption]. destruct ts; cbn; intuition congruence. }
    (* @id *)
    assert (S1 : remove_unique "@id" (one "@id" (option_map id_json i) ++ e2) = Ok (option_map id_json i, e2)).
    { destruct i; cbn [one option_map app]; [apply remove_unique_head|apply remove_unique_none]; apply K2; cbn; (tauto || congruence). }
    rewrite S1. cbn [bind].
    assert (S1' : opt_r (id_of_json io) (option_map id_json i) = Ok i).
    { destruct i as [x|]; cbn [option_map opt_r]; [|reflexivity]. rewrite (id_parse x) by auto. reflexivity. }
    rewrite S1'. cbn [bind].
    (* @type *)
    assert (S2 : remove_unique "@type" e2 = Ok (option_map (fun l => JArr (map id_json l)) ts, e3)).
    { subst e2. destruct ts; cbn [one option_map app]; [apply remove_unique_head|apply remove_unique_none]; apply K3; cbn; (tauto || congruence). }
    rewrite S2. cbn [bind].
    assert (S2' : opt_r (list_of_json (id_of_json io)) (option_map (fun l => JArr (map id_json l)) ts) = Ok ts).
    { destruct ts as [l|]; cbn [option_map opt_r]; [|reflexivity]. cbn [list_of_json]. rewrite map_r_map; [reflexivity|].
      eapply Forall_impl; [|exact Pts]. intros x. apply id_parse. }
    rewrite S2'. cbn [bind].
    (* @graph *)
    assert (S3 : remove_unique "@graph" e3 = Ok (option_map (fun l => JArr (map iobj_json l)) g, e4)).
    { subst e3. destruct g; cbn [one option_map app]; [apply remove_unique_head|apply remove_unique_none]; apply K4; cbn; (tauto || congruence). }
    rewrite S3. cbn [bind].
    assert (S3' : opt_r (set_of_json (iobj_hash fin rnd) (iobj_eqb fin rnd) pi) (option_map (fun l => JArr (map iobj_json l)) g) = Ok g).
    { destruct g as [l|]; cbn [option_map opt_r]; [|reflexivity]. unfold set_of_json. cbn [list_of_json]. rewrite map_r_map by exact Hg. cbn [bind].
      cbn [opt_list] in *. rewrite (set_insert_all (iobj_hash fin rnd) (iobj_eqb fin rnd) same_i l []); [reflexivity| |exact Dg].
      cbn [app]. intros x y I J. unfold iobj_eqb. rewrite andb_true_iff, opt_streq. intros [E X]. split; [exact E|].
      apply (proj1 (eqb_both fin rnd)) in X; [exact X|exact (Forall_in _ _ _ Wg I)|exact (Forall_in _ _ _ Wg J)]. }
    rewrite S3'. cbn [bind].
    (* @included *)
    rewrite remove_unique_none by (apply K4; cbn; (tauto || congruence)). cbn [bind opt_r].
    (* @reverse *)
    assert (S4 : remove_unique "@reverse" e4 = Ok (option_map (fun l => JObj (rev_entries l)) rs, e5)).
    { subst e4. destruct rs; cbn [one option_map app]; [apply remove_unique_head|apply remove_unique_none]; apply K; cbn; (tauto || congruence). }
    rewrite S4. cbn [bind].
    assert (S4' : opt_r (fun j => match j with JObj m => props_of_json io pn m | _ => Err JInvalidObject end) (option_map (fun l => JObj (rev_entries l)) rs) = Ok rs).
    { destruct rs as [l|]; cbn [option_map opt_r]; [|reflexivity]. unfold rev_entries. cbn [opt_list] in *.
      rewrite (props_parse pn inode_json l); [reflexivity|exact Nr| |exact Hr]. eapply Forall_impl; [|exact Pr]; intros p Hx; exact (proj1 Hx). }
    rewrite S4'. cbn [bind].
    subst e5. unfold prop_entries. rewrite (props_parse pi iobj_json ps Np Rp Hp). reflexivity.
  Qed.

  Lemma value_parse pi pn v m : pr_value io v -> value_json v = JObj m ->
    ~ In "@index" (keys m) /\ obj_of_json io fin rnd pi pn m = Ok (OVal v).
  Proof.
    intros P. destruct P as [l t Ht|[d l r] T|j]; cbn [value_json].
    - destruct t as [t|]; cbn [insert]; intros E; injection E as <-.
      + destruct (Ht t eq_refl) as [O N]. split; [cbn; intuition discriminate|].
        assert (X : forall v', obj_of_json io fin rnd pi pn [("@type", JStr t); ("@value", v')] =
          do l <- lit_of_json v' ; Ok (OVal (VLit l (Some t)))).
        { intros v'. unfold obj_of_json. rewrite remove_unique_none by (cbn; intuition discriminate). cbn [bind].
          change (remove_unique "@value" [("@type", JStr t); ("@value", v')]) with (Ok (A:=option json * jobject) (E:=jerr) (Some v', [("@type", JStr t)])). cbn [bind].
          unfold value_of_json. rewrite remove_unique_head by (cbn; tauto). cbn [bind].
          destruct (streq_spec t "@json") as [->|_]; [congruence|]. rewrite O. destruct (lit_of_json v'); reflexivity. }
        etransitivity; [exact (X (lit_json l))|]. destruct l; reflexivity.
      + split; [cbn; intuition discriminate|]. destruct l; reflexivity.
    - intros E. destruct l as [l|], r as [r|]; cbn [ls_language ls_direction ls_data insert] in E.
      4: { destruct T as [T|T]; cbn in T; congruence. }
      all: injection E as <-; split; [cbn; intuition discriminate|]; try (destruct r; reflexivity); reflexivity.
    - cbn [insert]. intros E. injection E as <-. split; [cbn; intuition discriminate|]. reflexivity.
  Qed.

  Lemma size_arr_map {A} (g : A -> json) l x : In x l -> json_size (g x) < json_size (JArr (map g l)).
  Proof. intros I. apply size_arr. apply in_map, I. Qed.

  Lemma parse_i_S n j : parse_i io fin rnd (S n) j = indexed_of_json (obj_of_json io fin rnd (parse_i io fin rnd n) (parse_n io fin rnd n)) j.
  Proof. reflexivity. Qed.
  Lemma parse_n_S n j : parse_n io fin rnd (S n) j = indexed_of_json (node_of_json io fin rnd (parse_i io fin rnd n) (parse_n io fin rnd n)) j.
  Proof. reflexivity. Qed.
  Lemma round_trip_both :
    (forall o, pr o -> wf o -> forall i n, json_size (iobj_json (i, o)) <= n -> parse_i io fin rnd n (iobj_json (i, o)) = Ok (i, o)) /\
    (forall x, prn x -> wf_node x ->
      (exists m, node_json x = JObj m /\ ~ In "@index" (keys m) /\
         (forall n, json_size (JObj m) <= S n -> obj_of_json io fin rnd (parse_i io fin rnd n) (parse_n io fin rnd n) m = Ok (ONode x)) /\
         (forall n, json_size (JObj m) <= S n -> node_of_json io fin rnd (parse_i io fin rnd n) (parse_n io fin rnd n) m = Ok x))).
  Proof.
    apply obj_node_ind.
    - intros v P _ i n L. inversion P as [? Pv| |]; subst. destruct n as [|n]; [pose proof (json_pos (iobj_json (i, OVal v))); lia|].
      rewrite parse_i_S. unfold iobj_json. cbn [fst snd obj_json].
      assert (exists m, value_json v = JObj m) as [m E] by (destruct v; eexists; reflexivity).
      destruct (value_parse (parse_i io fin rnd n) (parse_n io fin rnd n) v m Pv E) as [NI X].
      rewrite E, index_parse by exact NI. rewrite X. reflexivity.
    - intros x IH P W i n L. inversion P as [|? Px|]; inversion W as [|? Wx|]; subst.
      destruct (IH Px Wx) as (m & E & NI & X & _). destruct n as [|n]; [pose proof (json_pos (iobj_json (i, ONode x))); lia|].
      rewrite parse_i_S. unfold iobj_json in *. cbn [fst snd obj_json] in *. rewrite E in *. rewrite index_parse by exact NI.
      rewrite X; [reflexivity|]. pose proof (index_size i m NI). lia.
    - intros l IH P W i n L. inversion P as [| |? Pl]; inversion W as [| |? Wl]; subst.
      destruct n as [|n]; [pose proof (json_pos (iobj_json (i, OList l))); lia|].
      rewrite parse_i_S. unfold iobj_json in *. cbn [fst snd obj_json insert] in *.
      assert (NI : ~ In "@index" (keys [("@list", JArr (map (fun x : iobj => with_index (fst x) (obj_json (snd x))) l))])) by (cbn; intuition discriminate).
      pose proof (index_size i _ NI) as L'. rewrite index_parse by exact NI.
      unfold obj_of_json. rewrite remove_unique_none by (cbn; intuition discriminate). cbn [bind].
      rewrite remove_unique_none by (cbn; intuition discriminate). cbn [bind].
      rewrite remove_unique_head by (cbn; tauto). cbn [bind list_of_json].
      rewrite map_r_map; [reflexivity|]. apply Forall_forall. intros [ix o] I. cbn [fst snd].
      apply (Forall_in _ _ _ IH I (Forall_in _ _ _ Pl I) (Forall_in _ _ _ Wl I) ix n). unfold iobj_json.
      pose proof (size_arr_map iobj_json l (ix, o) I) as S1.
      unfold iobj in *.       set (J := JArr (map (fun x : option string * obj => with_index (fst x) (obj_json (snd x))) l)) in *.
      change (json_size (with_index ix (obj_json o)) < json_size J) in S1.
      pose proof (size_obj [("@list", J)] "@list" J (or_introl eq_refl)) as S2. clearbody J.
      apply Nat.lt_succ_r. eapply Nat.lt_le_trans; [|exact L]. eapply Nat.lt_le_trans; [exact S1|]. lia.
    - intros i ts g inc ps rs Hg _ Hp Hr P W.
      inversion P as [? ? ? ? ? Pi Pt Pts Pg Pp Pr]; subst. pose proof W as W'. inversion W' as [? ? ? ? ? ? Wg Dg _ _ Np Wp Nr Wr]; subst.
      exists (head_entries i ts g rs ++ prop_entries ps).
      assert (K : forall k, In k reserved -> ~ In k (keys (prop_entries ps))) by (intros k; apply prop_keys, Pp).
      assert (KH : forall k, In k ["@index"; "@context"; "@value"; "@list"] -> ~ In k (keys (head_entries i ts g rs ++ prop_entries ps))).
      { intros k I. rewrite keys_app. apply not_in_app; [|apply K; cbn in *; intuition (subst; auto)].
        unfold head_entries. rewrite !keys_app. destruct i, ts, g, rs; cbn in *; intuition congruence. }
      split; [apply node_entries; assumption|]. split; [apply KH; cbn; tauto|].
      assert (N : forall n, json_size (JObj (head_entries i ts g rs ++ prop_entries ps)) <= S n ->
         node_of_json io fin rnd (parse_i io fin rnd n) (parse_n io fin rnd n) (head_entries i ts g rs ++ prop_entries ps) = Ok (MkNode i ts g None ps rs)).
      { intros n L. apply node_parse; [assumption|assumption| | |].
        - apply Forall_forall. intros [ix o] I. apply (Forall_in _ _ _ Hg I (Forall_in _ _ _ Pg I) (Forall_in _ _ _ Wg I)).
          destruct g as [g|]; [|destruct I]. cbn [opt_list] in I.
          pose proof (size_arr_map iobj_json g (ix, o) I) as S1.
          assert (J : In ("@graph", JArr (map iobj_json g)) (head_entries i ts (Some g) rs ++ prop_entries ps)).
          { apply in_or_app; left. unfold head_entries. apply in_or_app; right. apply in_or_app; right. apply in_or_app; left. left; reflexivity. }
          exact (chain _ _ _ _ S1 (size_obj _ _ _ J) L).
        - apply Forall_forall. intros p J. apply Forall_forall. intros [ix o] I.
          destruct (Forall_in _ _ _ Pp J) as (_ & _ & Pp'). apply (Forall_in _ _ _ (Forall_in _ _ _ Hp J) I (Forall_in _ _ _ Pp' I) (Forall_in _ _ _ (Forall_in _ _ _ Wp J) I)).
          pose proof (size_arr_map iobj_json (snd p) (ix, o) I) as S1.
          assert (J' : In (id_str (fst p), JArr (map iobj_json (snd p))) (head_entries i ts g rs ++ prop_entries ps)).
          { apply in_or_app; right. unfold prop_entries. apply (in_map (fun p : id * list iobj => (id_str (fst p), JArr (map iobj_json (snd p)))) _ _ J). }
          exact (chain _ _ _ _ S1 (size_obj _ _ _ J') L).
        - apply Forall_forall. intros p J. apply Forall_forall. intros [ix x] I.
          destruct (Forall_in _ _ _ Pr J) as (_ & Pr').
          destruct (Forall_in _ _ _ (Forall_in _ _ _ Hr J) I (Forall_in _ _ _ Pr' I) (Forall_in _ _ _ (Forall_in _ _ _ Wr J) I)) as (m & E & NI & _ & X).
          destruct rs as [rs|]; [|destruct J]. cbn [opt_list] in J.
          pose proof (size_arr_map inode_json (snd p) (ix, x) I) as S1.
          assert (J1 : In (id_str (fst p), JArr (map inode_json (snd p))) (rev_entries rs)).
          { apply (in_map (fun p : id * list inode => (id_str (fst p), JArr (map inode_json (snd p)))) _ _ J). }
          pose proof (size_obj _ _ _ J1) as S2.
          assert (J2 : In ("@reverse", JObj (rev_entries rs)) (head_entries i ts g (Some rs) ++ prop_entries ps)).
          { apply in_or_app; left. unfold head_entries. apply in_or_app; right. apply in_or_app; right. apply in_or_app; right. left; reflexivity. }
          pose proof (size_obj _ _ _ J2) as S3.
          pose proof (chain _ _ _ _ S2 S3 L) as S5. pose proof (Nat.lt_le_trans _ _ _ S1 S5) as S6. clear S1 S2 S3 S5 J1 J2.
          unfold inode_json in *. cbn [fst snd] in *. rewrite E in *. pose proof (index_size ix m NI) as S4.
          destruct n as [|n]; [pose proof (json_pos (with_index ix (JObj m))); lia|].
          rewrite parse_n_S. rewrite index_parse by exact NI. rewrite X; [reflexivity|lia]. }
      split; [|exact N]. intros n L. unfold obj_of_json.
      rewrite remove_unique_none by (apply KH; cbn; tauto). cbn [bind].
      rewrite remove_unique_none by (apply KH; cbn; tauto). cbn [bind].
      rewrite remove_unique_none by (apply KH; cbn; tauto). cbn [bind].
      rewrite N by exact L. reflexivity.
  Qed.
End RoundTrip.

(** ** Parsed objects satisfy the invariants of their sets and maps *)
Lemma map_r_in {A B E} (f : A -> result B E) (P : B -> Prop) l r : (forall x y, In x l -> f x = Ok y -> P y) -> map_r f l = Ok r -> Forall P r.
Proof.
  revert r. induction l as [|x l IH]; cbn; intros r H E'; [injection E' as <-; constructor|].
  destruct (f x) as [y|] eqn:F; [|discriminate]. cbn in E'. destruct (map_r f l) as [r'|] eqn:M; [|discriminate]. injection E' as <-.
  constructor; [apply (H x); [left; reflexivity|exact F]|]. apply IH; [|reflexivity]. intros z y' I. apply H. right; exact I.
Qed.
Lemma insert_all_keys {A} k (v : list A) l x : In x (map fst (insert_all k v l)) <-> x = k \/ In x (map fst l).
Proof.
  induction l as [|[k' w] l IH]; cbn; [intuition|]. destruct (id_eqb_spec k k') as [->|N]; cbn; [intuition|]. rewrite IH. intuition.
Qed.
Lemma insert_all_nodup {A} k (v : list A) l : NoDup (map fst l) -> NoDup (map fst (insert_all k v l)).
Proof.
  induction l as [|[k' w] l IH]; cbn; intros D; [repeat constructor; intros []|]. inversion D as [|? ? NI D']; subst.
  destruct (id_eqb_spec k k') as [->|N]; cbn; [exact D|]. constructor; [|apply IH, D'].
  intros I. apply insert_all_keys in I. intuition.
Qed.
Lemma insert_all_values {A} (P : A -> Prop) k (v : list A) l : Forall P v -> Forall (fun p => Forall P (snd p)) l ->
  Forall (fun p => Forall P (snd p)) (insert_all k v l).
Proof.
  intros V. induction l as [|[k' w] l IH]; cbn; intros F; [repeat constructor; exact V|]. inversion F; subst.
  destruct (id_eqb k k'); constructor; cbn in *; auto. apply Forall_app; split; assumption.
Qed.
Lemma props_wf {A} io (f : json -> result A jerr) (P : A -> Prop) m ps : (forall j x, f j = Ok x -> P x) -> props_of_json io f m = Ok ps ->
  NoDup (map fst ps) /\ Forall (fun p => Forall P (snd p)) ps.
Proof.
  intros H. unfold props_of_json. destruct (map_r _ m) as [l|] eqn:M; [|discriminate]. cbn. intros E. injection E as <-.
  assert (F : Forall (fun p => Forall P (snd p)) l).
  { eapply map_r_in; [|exact M]. intros [k j] p _ E. cbn in E. destruct (list_of_json f j) as [v|] eqn:L; [|discriminate]. injection E as <-. cbn.
    destruct j; cbn in L; try discriminate. eapply map_r_in; [|exact L]. intros; eauto. }
  assert (G : forall l r, NoDup (map fst r) /\ Forall (fun p => Forall P (snd p)) r -> Forall (fun p => Forall P (snd p)) l ->
     let r' := fold_left (fun r p => insert_all (fst p) (snd p) r) l r in NoDup (map (@fst id (list A)) r') /\ Forall (fun p => Forall P (snd p)) r').
  { clear. induction l as [|p l IH]; cbn; intros r [D F] G; [auto|]. inversion G; subst. apply IH; [|assumption].
    split; [apply insert_all_nodup, D|apply insert_all_values; assumption]. }
  apply G; [|exact F]. split; constructor.
Qed.
Lemma distinct_snoc {A} (R : A -> A -> Prop) l x : distinct R l -> (forall y, In y l -> ~ R y x) -> distinct R (l ++ [x]).
Proof.
  unfold distinct. induction 1 as [|y l F D IH]; cbn; intros H; [repeat constructor|]. constructor.
  - apply Forall_app. split; [exact F|]. repeat constructor. apply H. left; reflexivity.
  - apply IH. intros z I. apply H. right; exact I.
Qed.
Lemma set_wf {A} (h : A -> N) (e : A -> A -> bool) (R : A -> A -> Prop) (W : A -> Prop) (f : json -> result A jerr) j s :
  (forall x y, W x -> W y -> R x y -> e x y = true) -> (forall x y, R x y -> h x = h y) -> (forall j x, f j = Ok x -> W x) ->
  set_of_json h e f j = Ok s -> Forall W s /\ distinct R s.
Proof.
  intros He Hh H. unfold set_of_json. destruct (list_of_json f j) as [l|] eqn:L; [|discriminate]. cbn. intros E. injection E as <-.
  assert (F : Forall W l) by (destruct j; cbn in L; try discriminate; eapply map_r_in; [|exact L]; intros; eauto).
  assert (G : forall l s, Forall W l -> Forall W s -> distinct R s -> Forall W (fold_left (set_insert h e) l s) /\ distinct R (fold_left (set_insert h e) l s)).
  { clear -He Hh. induction l as [|x l IH]; cbn; intros s Fl F D; [auto|]. inversion Fl; subst. apply IH; [assumption| |]; unfold set_insert.
    - destruct (existsb _ s); [exact F|]. apply Forall_app; auto.
    - destruct (existsb (fun y => N.eqb (h y) (h x) && e y x) s) eqn:X; [exact D|]. apply distinct_snoc; [exact D|]. intros y I Ry.
      assert (existsb (fun y => N.eqb (h y) (h x) && e y x) s = true); [|congruence]. apply existsb_exists. exists y. split; [exact I|].
      rewrite (Hh y x Ry), N.eqb_refl. apply He; auto. exact (Forall_in _ _ _ F I). }
  apply G; [exact F|constructor|constructor].
Qed.
Lemma opt_r_some {A B E} (f : A -> result B E) o r : opt_r f o = Ok r -> (o = None /\ r = None) \/ exists x y, o = Some x /\ r = Some y /\ f x = Ok y.
Proof. destruct o as [x|]; cbn; [|intros H; injection H as <-; auto]. destruct (f x) eqn:F; [|discriminate]. intros H. injection H as <-. eauto 6. Qed.
Lemma opt_r_prop {A B E} (f : A -> result B E) o r (P : option B -> Prop) : opt_r f o = Ok r -> P None -> (forall x y, f x = Ok y -> P (Some y)) -> P r.
Proof. intros H. destruct (opt_r_some _ _ _ H) as [[_ ->]|(x & y & _ & -> & F)]; eauto. Qed.
Lemma indexed_inv {A} (f : jobject -> result A jerr) j i x : indexed_of_json f j = Ok (i, x) -> exists m, f m = Ok x.
Proof.
  destruct j; cbn; try discriminate. destruct (remove_unique "@index" l) as [[o m]|]; [|discriminate]. cbn.
  destruct o as [[]|]; cbn; try discriminate; destruct (f m) eqn:E; try discriminate; cbn; intros H; injection H as _ <-; eauto.
Qed.

Section ParseWf.
  Variable io : iops.
  Variables (fin rnd : list word -> N).
  Lemma node_of_wf (pi : json -> result iobj jerr) (pn : json -> result inode jerr) m x : (forall j y, pi j = Ok y -> wf (snd y)) -> (forall j y, pn j = Ok y -> wf_node (snd y)) ->
    node_of_json io fin rnd pi pn m = Ok x -> wf_node x.
  Proof.
    intros Hi Hn. unfold node_of_json.
    destruct (remove_unique "@id" m) as [[i0 m1]|]; [|discriminate]. cbn [bind].
    destruct (opt_r (id_of_json io) i0) as [i|]; [|discriminate]. cbn [bind].
    destruct (remove_unique "@type" m1) as [[t0 m2]|]; [|discriminate]. cbn [bind].
    destruct (opt_r _ t0) as [ts|]; [|discriminate]. cbn [bind].
    destruct (remove_unique "@graph" m2) as [[g0 m3]|]; [|discriminate]. cbn [bind].
    destruct (opt_r _ g0) as [g|] eqn:Eg; [|discriminate]. cbn [bind].
    destruct (remove_unique "@included" m3) as [[c0 m4]|]; [|discriminate]. cbn [bind].
    destruct (opt_r _ c0) as [c|] eqn:Ec; [|discriminate]. cbn [bind].
    destruct (remove_unique "@reverse" m4) as [[r0 m5]|]; [|discriminate]. cbn [bind].
    destruct (opt_r _ r0) as [r|] eqn:Er; [|discriminate]. cbn [bind].
    match goal with |- (do ps <- ?p ; _) = _ -> _ => destruct p as [ps|] eqn:Ep; [|discriminate] end. cbn [bind]. intros E. injection E as <-.
    assert (Wg : Forall (fun x => wf (snd x)) (opt_list g) /\ distinct same_i (opt_list g)).
    { apply (opt_r_prop _ _ _ (fun g => Forall (fun x => wf (snd x)) (opt_list g) /\ distinct same_i (opt_list g)) Eg); [split; constructor|].
      intros j s. apply set_wf; [| |exact Hi].
      - intros [a x] [b y] Wx Wy [E S]. unfold iobj_eqb. rewrite (proj2 (opt_streq _ _) E). cbn. apply (proj1 (eqb_both fin rnd)); assumption.
      - intros [a x] [b y] [E S]. unfold iobj_hash, iobj_words. cbn in *. subst. rewrite (proj1 (same_words_both fin) _ _ S). reflexivity. }
    assert (Wc : Forall (fun x => wf_node (snd x)) (opt_list c) /\ distinct same_in (opt_list c)).
    { apply (opt_r_prop _ _ _ (fun g => Forall (fun x => wf_node (snd x)) (opt_list g) /\ distinct same_in (opt_list g)) Ec); [split; constructor|].
      intros j s. apply set_wf; [| |exact Hn].
      - intros [a x] [b y] Wx Wy [E S]. unfold inode_eqb. rewrite (proj2 (opt_streq _ _) E). cbn. apply (proj2 (eqb_both fin rnd)); assumption.
      - intros [a x] [b y] [E S]. unfold inode_hash, inode_words. cbn in *. subst. rewrite (proj2 (same_words_both fin) _ _ S). reflexivity. }
    assert (Wr : NoDup (map fst (opt_list r)) /\ Forall (fun p => Forall (fun x => wf_node (snd x)) (snd p)) (opt_list r)).
    { apply (opt_r_prop _ _ _ (fun r => NoDup (map fst (opt_list r)) /\ Forall (fun p => Forall (fun x => wf_node (snd x)) (snd p)) (opt_list r)) Er); [split; constructor|].
      intros j s E. destruct j; try discriminate. exact (props_wf io pn _ _ _ Hn E). }
    destruct (props_wf io pi (fun x => wf (snd x)) _ _ Hi Ep). constructor; tauto.
  Qed.
  Lemma obj_of_wf (pi : json -> result iobj jerr) (pn : json -> result inode jerr) m x : (forall j y, pi j = Ok y -> wf (snd y)) -> (forall j y, pn j = Ok y -> wf_node (snd y)) ->
    obj_of_json io fin rnd pi pn m = Ok x -> wf x.
  Proof.
    intros Hi Hn. unfold obj_of_json. destruct (remove_unique "@context" m) as [[[c|] m1]|]; try discriminate. cbn [bind].
    destruct (remove_unique "@value" m1) as [[[v|] m2]|]; try discriminate; cbn [bind].
    - destruct (value_of_json io m2 v); [|discriminate]. cbn. intros E. injection E as <-. constructor.
    - destruct (remove_unique "@list" m2) as [[[l|] m3]|]; try discriminate; cbn [bind].
      + destruct (list_of_json pi l) as [xs|] eqn:L; [|discriminate]. cbn. destruct m3; [|discriminate]. intros E. injection E as <-. constructor.
        destruct l; cbn in L; try discriminate. eapply map_r_in; [|exact L]. intros; eauto.
      + destruct (node_of_json io fin rnd pi pn m3) as [n|] eqn:E; [|discriminate]. cbn. intros E'. injection E' as <-. constructor. eapply node_of_wf; eauto.
  Qed.
  Lemma parse_wf n : (forall j y, parse_i io fin rnd n j = Ok y -> wf (snd y)) /\ (forall j y, parse_n io fin rnd n j = Ok y -> wf_node (snd y)).
  Proof.
    induction n as [|n [IHi IHn]]; [split; intros; discriminate|]. split; intros j [i x].
    - rewrite parse_i_S. intros E. destruct (indexed_inv _ _ _ _ E) as [m F]. exact (obj_of_wf _ _ _ _ IHi IHn F).
    - rewrite parse_n_S. intros E. destruct (indexed_inv _ _ _ _ E) as [m F]. exact (node_of_wf _ _ _ _ IHi IHn F).
  Qed.

  (** ** The fuel is enough *)
  Definition nf {A} (r : result A jerr) : Prop := r <> Err JFuel.
  Ltac nn := unfold nf; intros; discriminate.
  Lemma nf_bind {A B} (r : result A jerr) (k : A -> result B jerr) : nf r -> (forall x, r = Ok x -> nf (k x)) -> nf (bind r k).
  Proof. unfold nf. destruct r; cbn; intros H K; [apply K; reflexivity|congruence]. Qed.
  Definition osize (m : jobject) : nat := list_sum (map (fun e => json_size (snd e)) m).
  Lemma get_unique_in k m v : get_unique k m = Ok (Some v) -> In (k, v) m.
  Proof.
    unfold get_unique. destruct (get_all k m) as [|x [|]] eqn:G; try discriminate. intros E. injection E as ->.
    assert (I : In v (get_all k m)) by (rewrite G; left; reflexivity). unfold get_all in I. apply in_map_iff in I.
    destruct I as ([k' v'] & <- & I). apply filter_In in I. destruct I as [I S]. cbn [fst snd] in *. destruct (streq_spec k' k); [subst; exact I|discriminate].
  Qed.
  Lemma remove_size k m v m' : remove_unique k m = Ok (v, m') -> osize m' <= osize m /\ (forall j, v = Some j -> json_size j <= osize m).
  Proof.
    unfold remove_unique. destruct (get_unique k m) as [o|] eqn:G; [|discriminate]. intros E. injection E as <- <-. split; [apply size_remove|].
    intros j ->. apply get_unique_in in G. exact (list_sum_in (fun e : string * json => json_size (snd e)) m (k, j) G).
  Qed.
  Lemma nf_remove k m : nf (remove_unique k m). Proof. unfold nf, remove_unique. destruct (get_unique k m); congruence. Qed.
  Lemma nf_map {A B} (f : A -> result B jerr) l : (forall x, In x l -> nf (f x)) -> nf (map_r f l).
  Proof.
    induction l as [|x l IH]; cbn; intros H; [nn|]. apply nf_bind; [auto|]. intros y _. apply nf_bind; [auto|]. nn.
  Qed.
  Lemma nf_list {A} (f : json -> result A jerr) n j : (forall j, json_size j <= n -> nf (f j)) -> json_size j <= n -> nf (list_of_json f j).
  Proof. intros H L. destruct j; cbn; try nn. apply nf_map. intros x I. apply H. pose proof (size_arr l x I). lia. Qed.
  Lemma nf_set {A} h e (f : json -> result A jerr) n j : (forall j, json_size j <= n -> nf (f j)) -> json_size j <= n -> nf (set_of_json h e f j).
  Proof. intros H L. unfold set_of_json. apply nf_bind; [eapply nf_list; eauto|]. nn. Qed.
  Lemma nf_props {A} (f : json -> result A jerr) n m : (forall j, json_size j <= n -> nf (f j)) -> osize m <= n -> nf (props_of_json io f m).
  Proof.
    intros H L. unfold props_of_json. apply nf_bind; [|nn]. apply nf_map. intros [k j] I. apply nf_bind; [|nn].
    eapply nf_list; [exact H|]. cbn. pose proof (list_sum_in (fun e : string * json => json_size (snd e)) m (k, j) I) as S. cbn [snd] in S. unfold osize in L. lia.
  Qed.
  Lemma nf_opt {A} (f : json -> result A jerr) o : (forall j, o = Some j -> nf (f j)) -> nf (opt_r f o).
  Proof. destruct o; cbn; [|nn]. intros H. apply nf_bind; [auto|]. nn. Qed.
  Ltac nfd := exact (nf_remove _ _).
  Lemma nf_node (pi : json -> result iobj jerr) (pn : json -> result inode jerr) n m : (forall j, json_size j <= n -> nf (pi j)) -> (forall j, json_size j <= n -> nf (pn j)) -> osize m <= n ->
    nf (node_of_json io fin rnd pi pn m).
  Proof.
    intros Hi Hn L. unfold node_of_json.
    apply nf_bind; [nfd|]. intros [i0 m1] E1. apply remove_size in E1. destruct E1 as [L1 _].
    apply nf_bind; [apply nf_opt; intros [] _; cbn; nn|]. intros i _.
    apply nf_bind; [nfd|]. intros [t0 m2] E2. apply remove_size in E2. destruct E2 as [L2 _].
    apply nf_bind; [apply nf_opt; intros [] _; cbn; try nn; apply nf_map; intros [] _; cbn; nn|]. intros ts _.
    apply nf_bind; [nfd|]. intros [g0 m3] E3. apply remove_size in E3. destruct E3 as [L3 G3].
    apply nf_bind; [apply nf_opt; intros j ->; specialize (G3 j eq_refl); eapply nf_set; [exact Hi|lia]|]. intros g _.
    apply nf_bind; [nfd|]. intros [c0 m4] E4. apply remove_size in E4. destruct E4 as [L4 G4].
    apply nf_bind; [apply nf_opt; intros j ->; specialize (G4 j eq_refl); eapply nf_set; [exact Hn|lia]|]. intros c _.
    apply nf_bind; [nfd|]. intros [r0 m5] E5. apply remove_size in E5. destruct E5 as [L5 G5].
    apply nf_bind.
    { apply nf_opt; intros j ->; specialize (G5 j eq_refl). destruct j; try nn. eapply nf_props; [exact Hn|].
      change (json_size (JObj l)) with (S (osize l)) in G5. lia. }
    intros r _. apply nf_bind; [eapply nf_props; [exact Hi|lia]|]. nn.
  Qed.
  Lemma nf_value m v : nf (value_of_json io m v).
  Proof.
    assert (NL : forall v, nf (lit_of_json v)) by (intros []; nn).
    unfold value_of_json. apply nf_bind; [nfd|]. intros [t m1] _. destruct t as [[]|]; try nn.
    - destruct (streq s "@json"); [nn|]. destruct (iri_ok io s); [|nn]. apply nf_bind; [apply NL|]. nn.
    - apply nf_bind; [nfd|]. intros [l m2] _. apply nf_bind; [nfd|]. intros [d m3] _.
      assert (NS : nf (ls_of_json m3 v l d)).
      { unfold ls_of_json. apply nf_bind; [destruct v; nn|]. intros s _. apply nf_bind; [destruct l as [[]|]; nn|]. intros s' _.
        apply nf_bind; [destruct d as [[]|]; try nn; destruct (dir_of_str _); nn|]. intros d' _. destruct m3; nn. }
      destruct l, d; (apply nf_bind; [first [exact NS|apply NL]|nn]).
  Qed.
  Lemma nf_obj (pi : json -> result iobj jerr) (pn : json -> result inode jerr) n m : (forall j, json_size j <= n -> nf (pi j)) -> (forall j, json_size j <= n -> nf (pn j)) -> osize m <= n ->
    nf (obj_of_json io fin rnd pi pn m).
  Proof.
    intros Hi Hn L. unfold obj_of_json. apply nf_bind; [nfd|]. intros [c m1] E1. apply remove_size in E1. destruct E1 as [L1 _]. destruct c; [nn|].
    apply nf_bind; [nfd|]. intros [v m2] E2. apply remove_size in E2. destruct E2 as [L2 _].
    destruct v as [v|]; [apply nf_bind; [apply nf_value|nn]|].
    apply nf_bind; [nfd|]. intros [l m3] E3. apply remove_size in E3. destruct E3 as [L3 G3].
    destruct l as [l|].
    - specialize (G3 l eq_refl). apply nf_bind; [eapply nf_list; [exact Hi|lia]|]. intros xs _. destruct m3; nn.
    - apply nf_bind; [eapply nf_node; [exact Hi|exact Hn|lia]|nn].
  Qed.
  Lemma nf_index {A} (f : jobject -> result A jerr) j : (forall m, S (osize m) <= json_size j -> nf (f m)) -> nf (indexed_of_json f j).
  Proof.
    intros H. destruct j; cbn [indexed_of_json]; try nn. apply nf_bind; [nfd|]. intros [i m] E. apply remove_size in E. destruct E as [L _].
    apply nf_bind; [destruct i as [[]|]; nn|]. intros i' _. apply nf_bind; [|nn]. apply H.
    change (json_size (JObj l)) with (S (osize l)). lia.
  Qed.
  Lemma parse_nf n : (forall j, json_size j <= n -> nf (parse_i io fin rnd n j)) /\ (forall j, json_size j <= n -> nf (parse_n io fin rnd n j)).
  Proof.
    induction n as [|n [IHi IHn]]; [split; intros j L; pose proof (json_pos j); lia|]. split; intros j L.
    - rewrite parse_i_S. apply nf_index. intros m S. eapply nf_obj; [exact IHi|exact IHn|lia].
    - rewrite parse_n_S. apply nf_index. intros m S. eapply nf_node; [exact IHi|exact IHn|lia].
  Qed.
  (** The parser never runs out of the fuel [try_from_json] gives it. *)
  Lemma try_no_fuel j : try_from_json io fin rnd j <> Err JFuel /\ try_node_from_json io fin rnd j <> Err JFuel.
  Proof. split; apply parse_nf; apply le_n. Qed.
End ParseWf.

(** ** What has been read can be written *)
Section Reparse.
  Variable io : iops.
  Variables (fin rnd : list word -> N).
  Lemma id_str_of s : id_str (id_of_string io s) = s.
  Proof. unfold id_of_string. destruct (iri_ok io s); [reflexivity|]. destruct (blank_ok io s); reflexivity. Qed.
  Lemma read_readable s : readable io (id_of_string io s). Proof. unfold readable. rewrite id_str_of. reflexivity. Qed.
  Lemma id_of_json_readable j i : id_of_json io j = Ok i -> readable io i.
  Proof. destruct j; cbn; try discriminate. intros E. injection E as <-. apply read_readable. Qed.
  Lemma props_keys {A} (f : json -> result A jerr) m ps : props_of_json io f m = Ok ps ->
    Forall (fun p => exists k, In k (keys m) /\ fst p = id_of_string io k) ps.
  Proof.
    unfold props_of_json. destruct (map_r _ m) as [l|] eqn:M; [|discriminate]. cbn. intros E. injection E as <-.
    assert (F : Forall (fun p : id * list A => exists k, In k (keys m) /\ fst p = id_of_string io k) l).
    { eapply map_r_in; [|exact M]. intros [k j] p I E. cbn in E. destruct (list_of_json f j); [|discriminate]. injection E as <-. cbn.
      exists k. split; [|reflexivity]. apply (in_map fst) in I. exact I. }
    apply Forall_forall. intros p I.
    assert (G : forall l (r : list (id * list A)) x, In x (map fst (fold_left (fun r p => insert_all (fst p) (snd p) r) l r)) -> In x (map fst l) \/ In x (map fst r)).
    { clear. induction l as [|q l IH]; cbn; intros r x I; [auto|]. destruct (IH _ _ I) as [J|J]; [auto|]. apply insert_all_keys in J. intuition. }
    destruct (G l [] (fst p) (in_map fst _ _ I)) as [J|[]]. apply in_map_iff in J. destruct J as (q & E & J).
    pose proof (Forall_in _ _ _ F J) as K. cbn in K. rewrite E in K. exact K.
  Qed.
  Lemma remove_keys k m v m' : remove_unique k m = Ok (v, m') -> forall x, In x (keys m') <-> In x (keys m) /\ x <> k.
  Proof. unfold remove_unique. destruct (get_unique k m); [|discriminate]. intros E. injection E as <- <-. intros x. apply keys_remove_key. Qed.
  Lemma set_sub {A} h e (f : json -> result A jerr) (P : A -> Prop) j s : (forall j x, f j = Ok x -> P x) -> set_of_json h e f j = Ok s -> Forall P s.
  Proof.
    intros H. unfold set_of_json. destruct (list_of_json f j) as [l|] eqn:L; [|discriminate]. cbn. intros E. injection E as <-.
    assert (F : Forall P l) by (destruct j; cbn in L; try discriminate; eapply map_r_in; [|exact L]; intros; eauto).
    assert (G : forall l s, Forall P l -> Forall P s -> Forall P (fold_left (set_insert h e) l s)).
    { clear. induction l as [|x l IH]; cbn; intros s Fl F; [auto|]. inversion Fl; subst. apply IH; [assumption|]. unfold set_insert.
      destruct (existsb _ s); [exact F|]. apply Forall_app; auto. }
    apply G; auto.
  Qed.
  Lemma Forall_mp {A} (P Q : A -> Prop) l : Forall (fun x => P x -> Q x) l -> Forall P l -> Forall Q l.
  Proof. induction 1; intros F; inversion F; subst; constructor; auto. Qed.

  (** Nodes read by [pn] lie in an object without "@index" but may have the entries checked by the object parser. *)
  Lemma node_of_printable (pi : json -> result iobj jerr) (pn : json -> result inode jerr) m x :
    (forall j y, pi j = Ok y -> plain (snd y) -> printable io (snd y)) ->
    (forall j y, pn j = Ok y -> plain_node (snd y) -> (forall q, In q (n_props (snd y)) -> ~ In (id_str (fst q)) ["@context"; "@value"; "@list"]) -> printable_node io (snd y)) ->
    ~ In "@index" (keys m) -> node_of_json io fin rnd pi pn m = Ok x -> plain_node x ->
    (forall q, In q (n_props x) -> ~ In (id_str (fst q)) ["@context"; "@value"; "@list"]) -> printable_node io x.
  Proof.
    intros Hi Hn NI. unfold node_of_json.
    destruct (remove_unique "@id" m) as [[i0 m1]|] eqn:R1; [|discriminate]. cbn [bind].
    destruct (opt_r (id_of_json io) i0) as [i|] eqn:Ei; [|discriminate]. cbn [bind].
    destruct (remove_unique "@type" m1) as [[t0 m2]|] eqn:R2; [|discriminate]. cbn [bind].
    destruct (opt_r _ t0) as [ts|] eqn:Et; [|discriminate]. cbn [bind].
    destruct (remove_unique "@graph" m2) as [[g0 m3]|] eqn:R3; [|discriminate]. cbn [bind].
    destruct (opt_r _ g0) as [g|] eqn:Eg; [|discriminate]. cbn [bind].
    destruct (remove_unique "@included" m3) as [[c0 m4]|] eqn:R4; [|discriminate]. cbn [bind].
    destruct (opt_r _ c0) as [c|] eqn:Ec; [|discriminate]. cbn [bind].
    destruct (remove_unique "@reverse" m4) as [[r0 m5]|] eqn:R5; [|discriminate]. cbn [bind].
    destruct (opt_r _ r0) as [r|] eqn:Er; [|discriminate]. cbn [bind].
    destruct (props_of_json io pi m5) as [ps|] eqn:Ep; [|discriminate]. cbn [bind]. intros E. injection E as <-.
    intros Pl NK. inversion Pl as [? ? ? ? ? Nt Lg Lp Lr]; subst. cbn [n_props] in NK. constructor.
    - apply (opt_r_prop _ _ _ (fun i => forall x, i = Some x -> readable io x) Ei); [discriminate|].
      intros j y E x' E'. injection E' as <-. eapply id_of_json_readable, E.
    - exact Nt.
    - apply (opt_r_prop _ _ _ (fun ts => Forall (readable io) (opt_list ts)) Et); [constructor|].
      intros j y E. destruct j; cbn in E; try discriminate. eapply map_r_in; [|exact E]. intros. eapply id_of_json_readable; eassumption.
    - apply (Forall_mp (fun x : iobj => plain (snd x))); [|exact Lg].
      apply (opt_r_prop _ _ _ (fun g => Forall (fun x : iobj => plain (snd x) -> printable io (snd x)) (opt_list g)) Eg); [constructor|].
      intros j y. apply set_sub. exact Hi.
    - pose proof (props_keys pi m5 ps Ep) as K. destruct (props_wf io pi (fun x => plain (snd x) -> printable io (snd x)) m5 ps Hi Ep) as [_ V].
      apply Forall_forall. intros p I. destruct (Forall_in _ _ _ K I) as (k & Ik & Ek).
      pose proof (NK p I) as NKp. pose proof (Forall_in _ _ _ V I) as Vp. pose proof (Forall_in _ _ _ Lp I) as Lpp.
      destruct p as [pk pv]. cbn [fst snd] in *. subst pk. rewrite id_str_of in *. split; [apply read_readable|]. split.
      + intros J.
        rewrite (remove_keys _ _ _ _ R5), (remove_keys _ _ _ _ R4), (remove_keys _ _ _ _ R3), (remove_keys _ _ _ _ R2), (remove_keys _ _ _ _ R1) in Ik.
        cbn in J, NKp. intuition (subst; tauto).
      + apply (Forall_mp (fun x : iobj => plain (snd x))); assumption.
    - assert (X : Forall (fun p => readable io (fst p)) (opt_list r) /\ Forall (fun p : id * list inode => Forall (fun x : inode => plain_node (snd x) -> (forall q, In q (n_props (snd x)) -> ~ In (id_str (fst q)) ["@context"; "@value"; "@list"]) -> printable_node io (snd x)) (snd p)) (opt_list r)).
      { apply (opt_r_prop _ _ _ (fun r => Forall (fun p => readable io (fst p)) (opt_list r) /\ Forall (fun p : id * list inode => Forall (fun x : inode => plain_node (snd x) -> (forall q, In q (n_props (snd x)) -> ~ In (id_str (fst q)) ["@context"; "@value"; "@list"]) -> printable_node io (snd x)) (snd p)) (opt_list r)) Er); [split; constructor|].
        intros j y E. destruct j; try discriminate. split; [|exact (proj2 (props_wf io pn _ _ _ Hn E))].
        eapply Forall_impl; [|exact (props_keys pn _ _ E)]. intros p (k & _ & ->). apply read_readable. }
      destruct X as [X1 X2]. apply Forall_forall. intros p I. split; [exact (Forall_in _ _ _ X1 I)|].
      apply Forall_forall. intros y J. destruct (Forall_in _ _ _ (Forall_in _ _ _ Lr I) J) as [A B]. exact (Forall_in _ _ _ (Forall_in _ _ _ X2 I) J A B).
  Qed.
  Lemma value_of_printable m v x : value_of_json io m v = Ok x -> pr_value io x.
  Proof.
    unfold value_of_json. destruct (remove_unique "@type" m) as [[t m1]|]; [|discriminate]. cbn [bind]. destruct t as [[]|]; try discriminate.
    - destruct (streq_spec s "@json") as [->|N]; [intros E; injection E as <-; constructor|]. destruct (iri_ok io s) eqn:O; [|discriminate].
      destruct (lit_of_json v); [|discriminate]. cbn. intros E. injection E as <-. constructor. intros t' E. injection E as <-. auto.
    - destruct (remove_unique "@language" m1) as [[l m2]|]; [|discriminate]. cbn [bind].
      destruct (remove_unique "@direction" m2) as [[d m3]|]; [|discriminate]. cbn [bind].
      assert (NS : forall s, (l <> None \/ d <> None) -> ls_of_json m3 v l d = Ok s -> tagged s).
      { intros s H. unfold ls_of_json. destruct v; try discriminate. cbn [bind].
        destruct l as [[]|], d as [[]|]; cbn [bind]; try discriminate; try (destruct (dir_of_str _); [|discriminate]; cbn [bind]);
          try (destruct m3; [|discriminate]; intros E; injection E as <-; unfold tagged; cbn; (left; discriminate) || (right; discriminate) || idtac).
        destruct H; congruence. }
      destruct l, d; try (destruct (ls_of_json _ _ _ _) as [s|]; [|discriminate]; cbn; intros E; injection E as <-; constructor; apply NS; [|reflexivity]; (left; discriminate) || (right; discriminate)).
      destruct (lit_of_json v); [|discriminate]. cbn. intros E. injection E as <-. constructor. discriminate.
  Qed.
  Lemma obj_of_printable (pi : json -> result iobj jerr) (pn : json -> result inode jerr) m x :
    (forall j y, pi j = Ok y -> plain (snd y) -> printable io (snd y)) ->
    (forall j y, pn j = Ok y -> plain_node (snd y) -> (forall q, In q (n_props (snd y)) -> ~ In (id_str (fst q)) ["@context"; "@value"; "@list"]) -> printable_node io (snd y)) ->
    ~ In "@index" (keys m) -> obj_of_json io fin rnd pi pn m = Ok x -> plain x -> printable io x.
  Proof.
    intros Hi Hn NI. unfold obj_of_json.
    destruct (remove_unique "@context" m) as [[[c|] m1]|] eqn:R1; try discriminate. cbn [bind].
    destruct (remove_unique "@value" m1) as [[[v|] m2]|] eqn:R2; try discriminate; cbn [bind].
    - destruct (value_of_json io m2 v) eqn:V; [|discriminate]. cbn. intros E _. injection E as <-. constructor. eapply value_of_printable, V.
    - destruct (remove_unique "@list" m2) as [[[l|] m3]|] eqn:R3; try discriminate; cbn [bind].
      + destruct (list_of_json pi l) as [xs|] eqn:L; [|discriminate]. cbn. destruct m3; [|discriminate]. intros E Pl. injection E as <-. inversion Pl; subst. constructor.
        apply (Forall_mp (fun x : iobj => plain (snd x))); [|assumption]. destruct l; cbn in L; try discriminate. eapply map_r_in; [|exact L]. intros; eauto.
      + destruct (node_of_json io fin rnd pi pn m3) as [n|] eqn:E; [|discriminate]. cbn. intros E' Pl. injection E' as <-. inversion Pl; subst. constructor.
        assert (NK : forall k, In k (keys m3) -> ~ In k ["@context"; "@value"; "@list"] /\ k <> "@index").
        { intros k. rewrite (remove_keys _ _ _ _ R3), (remove_keys _ _ _ _ R2), (remove_keys _ _ _ _ R1). intros K. split; [cbn; intuition congruence|]. intros ->. tauto. }
        eapply node_of_printable; [exact Hi|exact Hn| |exact E|assumption|].
        * intros K. apply NK in K. tauto.
        * intros q I. unfold node_of_json in E.
          destruct (remove_unique "@id" m3) as [[i0 n1]|] eqn:Q1; [|discriminate]. cbn [bind] in E.
          destruct (opt_r (id_of_json io) i0) as [i|]; [|discriminate]. cbn [bind] in E.
          destruct (remove_unique "@type" n1) as [[t0 n2]|] eqn:Q2; [|discriminate]. cbn [bind] in E.
          destruct (opt_r _ t0) as [ts|]; [|discriminate]. cbn [bind] in E.
          destruct (remove_unique "@graph" n2) as [[g0 n3]|] eqn:Q3; [|discriminate]. cbn [bind] in E.
          destruct (opt_r _ g0) as [g|]; [|discriminate]. cbn [bind] in E.
          destruct (remove_unique "@included" n3) as [[c0 n4]|] eqn:Q4; [|discriminate]. cbn [bind] in E.
          destruct (opt_r _ c0) as [c|]; [|discriminate]. cbn [bind] in E.
          destruct (remove_unique "@reverse" n4) as [[r0 n5]|] eqn:Q5; [|discriminate]. cbn [bind] in E.
          destruct (opt_r _ r0) as [r|]; [|discriminate]. cbn [bind] in E.
          destruct (props_of_json io pi n5) as [ps|] eqn:Ep; [|discriminate]. cbn [bind] in E. injection E as <-. cbn [n_props] in I.
          destruct (Forall_in _ _ _ (props_keys pi n5 ps Ep) I) as (k & Ik & Ek). destruct q as [qk qv]. cbn [fst] in *. subst qk. rewrite id_str_of. apply NK.
          rewrite (remove_keys _ _ _ _ Q5), (remove_keys _ _ _ _ Q4), (remove_keys _ _ _ _ Q3), (remove_keys _ _ _ _ Q2), (remove_keys _ _ _ _ Q1) in Ik. tauto.
  Qed.
  Lemma indexed_inv_key {A} (f : jobject -> result A jerr) j i x : indexed_of_json f j = Ok (i, x) -> exists m, ~ In "@index" (keys m) /\ f m = Ok x.
  Proof.
    destruct j; cbn; try discriminate. destruct (remove_unique "@index" l) as [[o m]|] eqn:R; [|discriminate]. cbn.
    intros H. exists m. split; [rewrite (remove_keys _ _ _ _ R); tauto|]. revert H.
    destruct o as [[]|]; cbn; try discriminate; destruct (f m) eqn:E; try discriminate; cbn; intros H; injection H as _ <-; reflexivity.
  Qed.
  Lemma parse_printable n : (forall j y, parse_i io fin rnd n j = Ok y -> plain (snd y) -> printable io (snd y)) /\
    (forall j y, parse_n io fin rnd n j = Ok y -> plain_node (snd y) -> (forall q, In q (n_props (snd y)) -> ~ In (id_str (fst q)) ["@context"; "@value"; "@list"]) -> printable_node io (snd y)).
  Proof.
    induction n as [|n [IHi IHn]]; [split; intros; discriminate|]. split; intros j [i x].
    - rewrite parse_i_S. intros E. destruct (indexed_inv_key _ _ _ _ E) as (m & NI & F). exact (obj_of_printable _ _ _ _ IHi IHn NI F).
    - rewrite parse_n_S. intros E. destruct (indexed_inv_key _ _ _ _ E) as (m & NI & F). exact (node_of_printable _ _ _ _ IHi IHn NI F).
  Qed.
End Reparse.

(** Compaction: the parts that the items of a node give. *)
From Verif Require Import Prelude Json Str Keyword Enums LangTag LangString Container Stack ContextSyntax Ctx Inverse Process
  Object ObjectJson AddValue CompactIri CompactIriTerm Expand Compact CompactValue CompactProofs CompactKept Placed.

Section Parts.
Variables (io : iops) (ld : loader) (rel : string -> string -> string) (pf : nat) (o : copts).
Variable rec : option string -> obj -> actx -> actx -> option string -> result json kerr.
Notation kiri := (kiri rel o).
Notation kiri_with := (kiri_with rel o).
Notation kkey := (kkey rel o).
Notation put := (put rel o).

(** ** Specification *)
Definition has (c : actx) (key : string) (k : ckind) : Prop :=
  (key = "@type" /\ ac_type c <> None /\ k = CKSet) \/
  (key <> "@type" /\ exists d, assoc key (ac_defs c) = Some d /\ In k (as_slice (nd_container d))).
Definition kept_in (c : actx) (ap : option string) (k : ckind) : Prop := exists key, ap = Some key /\ has c key k.
(** The container makes a map of the values. *)
Definition mapping (c : actx) (key : string) : Prop :=
  ~ has c key CKGraph /\ (has c key CKLanguage \/ has c key CKIndex \/ has c key CKId \/ has c key CKType).
(** A single item is in an array. *)
Definition single_array (c : actx) (key : string) : Prop :=
  co_arrays o = false \/ key = "@graph" \/ key = "@set" \/ has c key CKList \/ has c key CKSet.
(** The items of a list, the nodes of a graph. *)
Definition content (c : actx) (key : string) (l : list iobj) (j : json) : Prop :=
  exists js, map_r (fun y => rec (fst y) (snd y) c c (Some key)) l = Ok js /\
    let vs := filter (fun j => negb (is_null j)) js in
    (vs = [j] /\ ~ single_array c key) \/ (j = JArr vs /\ (single_array c key \/ forall v, vs <> [v])).
(** The nested object of a term. *)
Definition nest_of (c : actx) (key : string) (pre : list string) : Prop :=
  match prop_def c (Some key) with
  | Some d => match nd_nest d with
              | Some TNest => pre = ["@nest"]
              | Some (TNestTerm t) => get_value c t = Some (Some (TmKw KNest)) /\ pre = [t]
              | None => pre = []
              end
  | None => pre = []
  end.
Definition index_property (c : actx) (key : string) : option string :=
  match prop_def c (Some key) with Some d => nd_index d | None => None end.

(** The first value of a key, if it is a string, is taken out of an object. *)
Definition first_of (k : string) (j : json) (s : option string) (j' : json) : Prop :=
  match j with
  | JObj y => NoDup (keys y) ->
      exists y', j' = JObj y' /\ NoDup (keys y') /\ (forall k', k' <> k -> assoc k' y' = assoc k' y) /\
        match values_of y k with
        | [] => s = None /\ values_of y' k = []
        | JStr t :: l => s = Some t /\ values_of y' k = flat_map leaves l
        | _ => s = None
        end
  | _ => s = None /\ j' = j
  end.
(** The key of an item in a map, if it has one, and its value. *)
Inductive entry (c : actx) (key : string) : iobj -> json -> option string -> json -> Prop :=
| EnLanguage ix v j : has c key CKLanguage -> entry c key (ix, OVal v) j (v_language v) (value_value v)
| EnIndex ix x j : ~ has c key CKLanguage -> has c key CKIndex -> index_property c key = None -> entry c key (ix, x) j ix j
| EnProperty ix x j p k s j' : ~ has c key CKLanguage -> has c key CKIndex -> index_property c key = Some p ->
    kiri c (TmId (IInvalid p)) true = Ok (Some k) -> first_of k j s j' -> entry c key (ix, x) j s j'
| EnId ix x j k s j' : ~ has c key CKLanguage -> ~ has c key CKIndex -> has c key CKId -> kkey c KId = Ok k ->
    match j with
    | JObj y => NoDup (keys y) -> match assoc k y with Some v => s = as_str v /\ j' = JObj (remove_key k y) | None => s = None /\ j' = j end
    | _ => s = None /\ j' = j
    end -> entry c key (ix, x) j s j'
| EnType ix x j k s j1 j' : ~ has c key CKLanguage -> ~ has c key CKIndex -> ~ has c key CKId -> kkey c KType = Ok k ->
    first_of k j s j1 ->
    (exists v i, j1 = JObj [("@id", v)] /\ o_id x = Some i /\ rec None (ONode (node_new (Some i))) c c (Some key) = Ok j') \/
    (j' = j1 /\ forall v, j1 <> JObj [("@id", v)]) ->
    entry c key (ix, x) j s j'
(** Nothing is said about what is not a value in a language map. *)
| EnOther ix x j s j' : has c key CKLanguage -> (forall v, x <> OVal v) -> entry c key (ix, x) j s j'.

(** What is added for an item: the keys under that of the property, and the value. *)
Inductive route (c : actx) (key : string) : iobj -> list string -> bool -> json -> Prop :=
| RtPlain ix x j : is_list x = false -> ~ a_graph x -> ~ mapping c key -> rec ix x c c (Some key) = Ok j -> route c key (ix, x) [] false j
| RtMap ix x j s k v : is_list x = false -> ~ a_graph x -> mapping c key -> rec ix x c c (Some key) = Ok j ->
    entry c key (ix, x) j s v -> match s with Some s => k = s | None => kkey c KNone = Ok k end -> route c key (ix, x) [k] false v
| RtListed ix l js : has c key CKList -> map_r (fun y => rec (fst y) (snd y) c c (Some key)) l = Ok js ->
    route c key (ix, OList l) [] true (JArr (filter (fun j => negb (is_null j)) js))
| RtList ix l j a kl ki m : ~ has c key CKList -> content c key l j -> a = match j with JArr a => a | v => [v] end ->
    kkey c KList = Ok kl -> match ix with Some _ => kkey c KIndex = Ok ki | None => True end -> m = insert kl (JArr a) [] ->
    route c key (ix, OList l) [] false (JObj (match ix with Some i => insert ki (JStr i) m | None => m end))
| RtGraphId ix i g j k : has c key CKGraph -> has c key CKId -> content c key g j ->
    match i with Some i => kiri c (TmId i) false = Ok (Some k) | None => kkey c KNone = Ok k end ->
    route c key (ix, ONode (MkNode i None (Some g) None [] None)) [k] false j
| RtGraphIndex ix g j : has c key CKGraph -> ~ has c key CKId -> has c key CKIndex -> content c key g j ->
    route c key (ix, ONode (MkNode None None (Some g) None [] None)) [match ix with Some i => i | None => "@none" end] false j
| RtInGraph ix g j : has c key CKGraph -> ~ has c key CKId -> ~ has c key CKIndex -> content c key g j -> (forall a b l, j <> JArr (a :: b :: l)) ->
    route c key (ix, ONode (MkNode None None (Some g) None [] None)) [] false j
| RtInGraphs ix g j k : has c key CKGraph -> ~ has c key CKId -> ~ has c key CKIndex -> content c key g j -> (exists a b l, j = JArr (a :: b :: l)) ->
    kkey c KIncluded = Ok k -> route c key (ix, ONode (MkNode None None (Some g) None [] None)) [] false (JObj [(k, j)])
| RtGraph ix i g j kg ki s kx m : ~ has c key CKGraph \/ (i <> None /\ ~ has c key CKId) -> content c key g j -> kkey c KGraph = Ok kg ->
    match i with Some i => kiri c (TmKw KId) false = Ok (Some ki) /\ kiri c (TmId i) false = Ok (Some s) | None => True end ->
    match ix with Some _ => kkey c KIndex = Ok kx | None => True end ->
    m = insert kg j [] ->
    route c key (ix, ONode (MkNode i None (Some g) None [] None)) [] false
      (JObj (let m := match i with Some _ => insert ki (JStr s) m | None => m end in
             match ix with Some i => insert kx (JStr i) m | None => m end)).
Definition arrayed (c : actx) (key : string) : Prop := has c key CKSet \/ key = "@graph" \/ key = "@list" \/ co_arrays o = false.
(** The part that an item gives, and the parts that a property gives. *)
Definition puts (c : actx) (r : bool) (t : term) (x : iobj) (p : part) : Prop :=
  exists key pre rest, kiri_with c t x r = Ok (Some key) /\ nest_of c key pre /\ pt_path p = pre ++ key :: rest /\
    route c key x rest (pt_alone p) (pt_value p) /\ (pt_array p = true <-> arrayed c key).
Definition put_by (c : actx) (r : bool) (t : term) (l : list iobj) (ps : list part) : Prop :=
  match l with
  | [] => exists key pre, kiri_with c t (None, ONode (node_new None)) r = Ok (Some key) /\ nest_of c key pre /\ ps = [MkPart (pre ++ [key]) true false (JArr [])]
  | _ => Forall2 (puts c r t) l ps
  end.

(** ** Proofs *)
Lemma has_spec c key k : c_contains (container_of c key) k = true <-> has c key k.
Proof.
  assert (C : forall cn, c_contains cn k = true <-> In k (as_slice cn)).
  { intros cn. unfold c_contains. rewrite existsb_exists. split; [intros (y & I & E); destruct k, y; try discriminate; exact I|].
    intros I. exists k. split; [exact I|destruct k; reflexivity]. }
  rewrite C. clear C. unfold has, container_of, get_normal. destruct (streq_spec key "@type") as [->|N].
  - destruct (ac_type c); cbn.
    + split; [intros [<-|[]]; left; repeat split; discriminate|]. intros [(_ & _ & ->)|[X _]]; [auto|congruence].
    + split; [intros []|]. intros [(_ & X & _)|[X _]]; congruence.
  - destruct (assoc key (ac_defs c)) as [d|].
    + split; [intros I; right; split; [exact N|eauto]|]. intros [[X _]|(_ & d' & E & I)]; [congruence|]. injection E as <-. exact I.
    + split; [intros []|]. intros [[X _]|(_ & d' & E & I)]; [congruence|discriminate].
Qed.
Lemma has_not c key k : c_contains (container_of c key) k = false <-> ~ has c key k.
Proof. rewrite <- has_spec. destruct (c_contains _ _); split; congruence. Qed.
Lemma kept_in_spec c ap k : c_contains (container_ap c ap) k = true <-> kept_in c ap k.
Proof.
  unfold kept_in. destruct ap as [key|]; cbn [container_ap].
  - rewrite has_spec. split; [eauto|]. intros (k' & E & H). injection E as ->. exact H.
  - split; [discriminate|]. intros (k' & E & _). discriminate.
Qed.
Lemma collection_content l c key j : compact_collection o rec l c c (Some key) = Ok j -> content c key l j.
Proof.
  unfold compact_collection. rewrite flat_is_map. destruct (map_r _ l) as [js|] eqn:M; [|discriminate]. cbn [bind]. intros H. injection H as H.
  exists js. split; [exact M|]. cbn zeta.
  assert (S : negb (co_arrays o) || ap_is (Some key) KGraph || ap_is (Some key) KSet || c_contains (container_ap c (Some key)) CKList || c_contains (container_ap c (Some key)) CKSet = true <-> single_array c key).
  { unfold single_array, ap_is, container_ap. cbn [opt_eqb]. rewrite !orb_true_iff, negb_true_iff, !has_spec, !streq_true. cbn [kw_str]. tauto. }
  destruct (filter _ js) as [|v [|w vs]].
  - right. split; [congruence|]. right. discriminate.
  - destruct (_ || _) in H, S; [right; split; [congruence|left; tauto]|left; split; [congruence|]]. intros X. apply S in X. discriminate.
  - right. split; [congruence|]. right. discriminate.
Qed.
Lemma arrayed_spec c key : as_array_for o c key = true <-> arrayed c key.
Proof.
  unfold as_array_for, arrayed. rewrite !orb_true_iff, has_spec, negb_true_iff. rewrite !streq_true. tauto.
Qed.
Lemma in_map_ext m k f g : (forall y, f y = g y) -> in_map m k f = in_map m k g.
Proof. intros E. unfold in_map. destruct (kget k m) as [[[| | | | |x]|]|]; try reflexivity; cbn [bind]; rewrite E; reflexivity. Qed.
Lemma in_map_inv m k f m' : in_map m k f = Ok m' -> exists x x', f x = Ok x'.
Proof.
  unfold in_map. destruct (kget k m) as [[[| | | | |x]|]|]; try discriminate; cbn [bind].
  - destruct (f x) eqn:E; [eauto|discriminate].
  - destruct (f []) eqn:E; [eauto|discriminate].
Qed.
Lemma kget_ok k m v : NoDup (keys m) -> kget k m = Ok v -> assoc k m = v.
Proof. intros N. unfold kget. rewrite (get_unique_nodup k m N). congruence. Qed.
Lemma put_fold k l : forall x x', NoDup (keys x) -> fold_r (fun x v => kadd x k v false) x l = Ok x' ->
  NoDup (keys x') /\ (forall k', k' <> k -> assoc k' x' = assoc k' x) /\ values_of x' k = values_of x k ++ flat_map leaves l.
Proof.
  induction l as [|v l IH]; intros x x' N H; cbn [fold_r] in H; [injection H as <-; cbn; rewrite app_nil_r; auto|].
  unfold kadd in H at 1. destruct (add_value_ok v x k false N) as (x1 & E & N1 & V1 & O1 & _). rewrite E in H.
  destruct (IH _ _ N1 H) as (N2 & O2 & V2). split; [exact N2|]. split; [intros k' D; rewrite O2, O1 by exact D; reflexivity|].
  rewrite V2, V1, <- app_assoc. reflexivity.
Qed.
Lemma first_of_spec k j s l j1 j2 : take_first k j = Ok (s, l, j1) -> put_back k l j1 = Ok j2 -> first_of k j s j2.
Proof.
  intros T P. destruct j as [| | | | |y]; cbn [take_first] in T; try (injection T as <- <- <-; injection P as <-; split; reflexivity).
  intros N. destruct (kget k y) as [v|] eqn:G; cbn [bind] in T; [|discriminate]. apply (kget_ok _ _ _ N) in G.
  pose proof (nodup_remove_key k y N) as NR. pose proof (assoc_remove_key_same k y) as RR.
  assert (RO : forall k', k' <> k -> assoc k' (remove_key k y) = assoc k' y) by (intros k' D; apply assoc_remove_key; exact D).
  assert (VR : values_of (remove_key k y) k = []) by (unfold values_of; rewrite RR; reflexivity).
  assert (PB : forall l, put_back k l (JObj (remove_key k y)) = Ok j2 -> exists y', j2 = JObj y' /\ NoDup (keys y') /\ (forall k', k' <> k -> assoc k' y' = assoc k' y) /\ values_of y' k = flat_map leaves l).
  { clear P. intros [|v0 l0] P; cbn [put_back] in P; [injection P as <-; eauto|].
    destruct (fold_r _ _ (v0 :: l0)) as [y'|] eqn:F; cbn [bind] in P; [|discriminate]. injection P as <-. destruct (put_fold _ _ _ _ NR F) as (N' & O' & V').
    rewrite VR in V'. exists y'. split; [reflexivity|]. split; [exact N'|]. split; [intros k' D; rewrite O', RO by exact D; reflexivity|exact V']. }
  unfold values_of. rewrite G. destruct v as [v|].
  2:{ injection T as <- <- <-. injection P as <-. exists y. split; [reflexivity|]. split; [exact N|]. split; [reflexivity|]. rewrite G. auto. }
  destruct v as [|b|n|t|[|w a]|m]; cbn [as_str] in T; injection T as <- <- <-; destruct (PB _ P) as (y' & E & N' & O' & V'); exists y'; (split; [exact E|]); (split; [exact N'|]); (split; [exact O'|]); unfold values_of in V'.
  1,2,3: reflexivity.
  - split; [reflexivity|exact V'].
  - split; [reflexivity|exact V'].
  - destruct w; cbn [as_str]; try reflexivity. split; [reflexivity|exact V'].
  - reflexivity.
Qed.

(** The body of [compact_item]. *)
Definition item_body (x : iobj) (c : actx) (key : string) (m : jobject) : result jobject kerr :=
  let cn := container_of c key in
  let as_array := as_array_for o c key in
  match snd x with
  | OList l => compact_property_list rel o rec l (fst x) m cn as_array key c
  | ONode n => match (if is_graph n then n_graph n else None) with
               | Some g => compact_property_graph rel o rec n g (fst x) m cn as_array key c
               | None => compact_plain rel o rec x m cn as_array key c
               end
  | OVal _ => compact_plain rel o rec x m cn as_array key c
  end.
(** An action that puts a part. *)
Definition acts (key : string) (rest : list string) (a al : bool) (v : json) (f : jobject -> result jobject kerr) : Prop :=
  (rest = [] /\ forall m, f m = place_last a al v key m) \/ (exists k, rest = [k] /\ forall m, f m = in_map m key (place_last a al v k)).

Lemma entry_spec c key x j v k : map_entry rel o rec (container_of c key) key x j c = Ok (k, v) ->
  exists s, entry c key x j s v /\ match s with Some s => k = s | None => kkey c KNone = Ok k end.
Proof.
  intros H. destruct x as [ix x]. unfold map_entry in H. cbn [fst snd] in H.
  match type of H with bind ?r _ = _ => destruct r as [[s' v']|] eqn:E end; cbn [bind] in H; [|discriminate].
  assert (K : v' = v /\ match s' with Some s => k = s | None => kkey c KNone = Ok k end).
  { destruct s' as [s'|]; cbn [bind] in H; [injection H as <- <-; auto|]. destruct (kkey c KNone); cbn [bind] in H; [|discriminate]. injection H as <- <-. auto. }
  destruct K as [-> K]. exists s'. split; [|exact K]. clear K H.
  destruct (c_contains (container_of c key) CKLanguage) eqn:L.
  - destruct x as [w|n|l]; cbn [is_value andb] in E.
    + injection E as <- <-. apply EnLanguage. apply has_spec. exact L.
    + apply EnOther; [apply has_spec; exact L|discriminate].
    + apply EnOther; [apply has_spec; exact L|discriminate].
  - cbn [andb] in E. pose proof L as L'. apply has_not in L'. destruct (c_contains (container_of c key) CKIndex) eqn:I.
    + pose proof I as I'. apply has_spec in I'. fold (index_property c key) in E. destruct (index_property c key) as [ik|] eqn:IP.
      * destruct (kiri c (TmId (IInvalid ik)) true) as [[ck|]|] eqn:KI; cbn [kunwrap bind] in E; try discriminate.
        destruct (take_first ck j) as [[[s1 l1] j1]|] eqn:T; cbn [bind] in E; [|discriminate]. destruct (put_back ck l1 j1) as [j2|] eqn:PB; cbn [bind] in E; [|discriminate].
        injection E as <- <-. exact (EnProperty c key ix x j ik ck s1 j2 L' I' IP KI (first_of_spec _ _ _ _ _ _ T PB)).
      * injection E as <- <-. apply EnIndex; assumption.
    + pose proof I as I'. apply has_not in I'. destruct (c_contains (container_of c key) CKId) eqn:D.
      * pose proof D as D'. apply has_spec in D'. destruct (kkey c KId) as [ck|] eqn:KI; cbn [bind] in E; [|discriminate].
        apply (EnId c key ix x j ck s' v L' I' D' KI). destruct j as [| | | | |y]; try (injection E as <- <-; split; reflexivity).
        intros N. destruct (kget ck y) as [w|] eqn:G; cbn [bind] in E; [|discriminate]. apply (kget_ok _ _ _ N) in G. rewrite G. destruct w; injection E as <- <-; split; reflexivity.
      * pose proof D as D'. apply has_not in D'. destruct (kkey c KType) as [ck|] eqn:KI; cbn [bind] in E; [|discriminate].
        destruct (take_first ck j) as [[[s1 l1] j1]|] eqn:T; cbn [bind] in E; [|discriminate]. destruct (put_back ck l1 j1) as [j2|] eqn:PB; cbn [bind] in E; [|discriminate].
        match type of E with bind ?r _ = _ => destruct r as [j3|] eqn:R end; cbn [bind] in E; [|discriminate]. injection E as <- <-.
        apply (EnType c key ix x j ck s1 j2 j3 L' I' D' KI (first_of_spec _ _ _ _ _ _ T PB)).
        assert (X : (exists v, j2 = JObj [("@id", v)]) \/ (forall v, j2 <> JObj [("@id", v)])).
        { destruct j2 as [| | | | |[|[k2 v2] [|e2 y2]]]; try (right; intros; discriminate). destruct (streq_spec k2 "@id") as [->|X]; [left; eauto|right; intros v E; congruence]. }
        destruct X as [[v X]|X].
        -- left. subst j2. destruct (o_id x) as [i|] eqn:OI; [|discriminate]. exists v, i. auto.
        -- right. split; [|exact X]. clear - R X. destruct j2 as [| | | | |[|[k2 v2] [|e2 y2]]]; try (injection R as <-; reflexivity).
           ++ revert R. repeat match goal with |- context [match ?k with EmptyString => _ | String _ _ => _ end] => destruct k | |- context [match ?a with Ascii.Ascii _ _ _ _ _ _ _ _ => _ end] => destruct a | |- context [if ?b then _ else _] => destruct b end; intros R; try (injection R as <-; reflexivity). destruct (X v2 eq_refl).
           ++ revert R. repeat match goal with |- context [match ?k with EmptyString => _ | String _ _ => _ end] => destruct k | |- context [match ?a with Ascii.Ascii _ _ _ _ _ _ _ _ => _ end] => destruct a | |- context [if ?b then _ else _] => destruct b end; intros R; injection R as <-; reflexivity.
Qed.

Lemma mapping_spec c key : negb (c_contains (container_of c key) CKGraph)
  && (c_contains (container_of c key) CKLanguage || c_contains (container_of c key) CKIndex || c_contains (container_of c key) CKId || c_contains (container_of c key) CKType) = true
  <-> mapping c key.
Proof. unfold mapping. rewrite andb_true_iff, negb_true_iff, !orb_true_iff, has_not, !has_spec. tauto. Qed.
Lemma plain_route x c key m1 m2 : is_list (snd x) = false -> ~ a_graph (snd x) ->
  compact_plain rel o rec x m1 (container_of c key) (as_array_for o c key) key c = Ok m2 ->
  exists rest v, route c key x rest false v /\
    acts key rest (as_array_for o c key) false v (fun m => compact_plain rel o rec x m (container_of c key) (as_array_for o c key) key c).
Proof.
  intros L G H. destruct x as [ix x]. cbn [fst snd] in *. unfold compact_plain in *. cbn [fst snd] in *.
  destruct (rec ix x c c (Some key)) as [j|] eqn:R; cbn [bind] in *; [|discriminate].
  destruct (negb _ && _) eqn:M.
  - apply mapping_spec in M. destruct (map_entry rel o rec (container_of c key) key (ix, x) j c) as [[k v]|] eqn:E.
    + destruct (entry_spec _ _ _ _ _ _ E) as (s & En & K). exists [k], v. split; [exact (RtMap c key ix x j s k v L G M R En K)|].
      right. exists k. split; [reflexivity|]. intros m. apply in_map_ext. reflexivity.
    + apply in_map_inv in H. destruct H as (y & y' & X). discriminate.
  - exists [], j. split; [|left; split; [reflexivity|intros m; reflexivity]]. apply RtPlain; try assumption. intros X. apply mapping_spec in X. congruence.
Qed.
Lemma body_route x c key m1 m2 : item_body x c key m1 = Ok m2 ->
  exists rest al v, route c key x rest al v /\ acts key rest (as_array_for o c key) al v (item_body x c key).
Proof.
  intros H. destruct x as [ix x]. unfold item_body in *. cbn [snd fst] in *. destruct x as [v|n|l].
  - destruct (plain_route (ix, OVal v) c key m1 m2) as (rest & w & R & A); [reflexivity|intros (? & ? & X); discriminate X|exact H|]. exists rest, false, w. auto.
  - destruct (is_graph n) eqn:G.
    2:{ destruct (plain_route (ix, ONode n) c key m1 m2) as (rest & w & R & A); [reflexivity|apply not_graph_spec; exact G|exact H|]. exists rest, false, w. auto. }
    apply (a_graph_spec (ONode n)) in G. destruct G as (i & g & E). injection E as ->. cbn [n_graph] in *.
    unfold compact_property_graph in *. destruct (compact_collection o rec g c c (Some key)) as [j|] eqn:CC; cbn [bind] in *; [|discriminate].
    assert (CN : content c key g j).
    { exact (collection_content _ _ _ _ CC). }
    cbn [n_id] in *.
    destruct (c_contains (container_of c key) CKGraph) eqn:KG; cbn [andb] in *.
    2:{ (* not a graph container *)
      unfold put in H. destruct (kkey c KGraph) as [kg|] eqn:KK; cbn [bind] in H; [|discriminate].
      match type of H with bind ?r _ = _ => destruct r as [x2|] eqn:E2 end; cbn [bind] in H; [|discriminate].
      match type of H with bind ?r _ = _ => destruct r as [x3|] eqn:E3 end; cbn [bind] in H; [|discriminate].
      exists [], false, (JObj x3). split; [|left; split; [reflexivity|]; intros m; unfold put; rewrite KK; cbn [bind]; rewrite E2; cbn [bind]; unfold put in E3; rewrite E3; reflexivity].
      assert (E2' : exists ki s, match i with Some i => kiri c (TmKw KId) false = Ok (Some ki) /\ kiri c (TmId i) false = Ok (Some s) | None => True end /\
        x2 = match i with Some _ => insert ki (JStr s) (insert kg j []) | None => insert kg j [] end).
      { destruct i as [i|]; [|exists "", ""; split; [exact I|congruence]]. destruct (kiri c (TmKw KId) false) as [[ki|]|] eqn:KI; cbn [kunwrap bind] in E2; try discriminate.
        destruct (kiri c (TmId i) false) as [[s|]|] eqn:KS; cbn [bind opt_string] in E2; try discriminate.
        - injection E2 as <-. exists ki, s. auto.
        - exfalso. exact (kiri_some _ _ _ _ _ KS). }
      destruct E2' as (ki & s & C1 & ->). apply has_not in KG. destruct ix as [x|].
      * destruct (kkey c KIndex) as [kx|] eqn:KX; cbn [bind] in E3; [|discriminate]. injection E3 as <-.
        apply (RtGraph c key (Some x) i g j kg ki s kx _ (or_introl KG) CN KK C1 KX eq_refl).
      * injection E3 as <-. apply (RtGraph c key None i g j kg ki s "" _ (or_introl KG) CN KK C1 I eq_refl). }
    pose proof KG as KG'. apply has_spec in KG'.
    destruct (c_contains (container_of c key) CKId) eqn:KD.
    { pose proof KD as KD'. apply has_spec in KD'. destruct (in_map_inv _ _ _ _ H) as (y & y' & Y).
      match type of Y with bind ?r _ = _ => destruct r as [k|] eqn:K end; cbn [bind] in Y; [|discriminate].
      exists [k], false, j. split; [|right; exists k; split; [reflexivity|]; intros m; apply in_map_ext; reflexivity].
      apply (RtGraphId c key ix i g j k KG' KD' CN). destruct i as [i|]; [|exact K]. destruct (kiri c (TmId i) false) as [[k1|]|]; cbn [kunwrap bind] in K; congruence. }
    pose proof KD as KD'. apply has_not in KD'. unfold is_simple in *. cbn [n_id] in *.
    destruct i as [i|]; cbn [is_some negb andb] in *; rewrite ?andb_false_r in *.
    { unfold put in H. destruct (kkey c KGraph) as [kg|] eqn:KK; cbn [bind] in H; [|discriminate].
      match type of H with bind ?r _ = _ => destruct r as [x2|] eqn:E2 end; cbn [bind] in H; [|discriminate].
      match type of H with bind ?r _ = _ => destruct r as [x3|] eqn:E3 end; cbn [bind] in H; [|discriminate].
      exists [], false, (JObj x3). split.
      2:{ left; split; [reflexivity|]; intros m; rewrite ?andb_false_r; unfold put; rewrite KK; cbn [bind]; rewrite E2; cbn [bind]; unfold put in E3; rewrite E3; reflexivity. }
      destruct (kiri c (TmKw KId) false) as [[ki|]|] eqn:KI; cbn [kunwrap bind] in E2; try discriminate.
      destruct (kiri c (TmId i) false) as [[s|]|] eqn:KS; cbn [bind opt_string] in E2; try discriminate; [|destruct (kiri_some _ _ _ _ _ KS)]. injection E2 as <-.
      destruct ix as [x|].
      * destruct (kkey c KIndex) as [kx|] eqn:KX; cbn [bind] in E3; [|discriminate]. injection E3 as <-.
        refine (RtGraph c key (Some x) (Some i) g j kg ki s kx (insert kg j []) _ CN KK (conj KI KS) KX eq_refl). right. split; [discriminate|exact KD'].
      * injection E3 as <-. refine (RtGraph c key None (Some i) g j kg ki s "" (insert kg j []) _ CN KK (conj KI KS) I eq_refl). right. split; [discriminate|exact KD']. }
    rewrite ?andb_true_r in *. destruct (c_contains (container_of c key) CKIndex) eqn:KX.
    { exists [match ix with Some i => i | None => "@none" end], false, j. apply has_spec in KX. split; [apply RtGraphIndex; assumption|].
      right. eexists. split; [reflexivity|]. intros m. apply in_map_ext. reflexivity. }
    apply has_not in KX. match type of H with bind ?r _ = _ => destruct r as [j'|] eqn:E end; cbn [bind] in H; [|discriminate].
    exists [], false, j'. split; [|left; split; [reflexivity|]; intros m; reflexivity].
    destruct j as [| | | |[|a [|b l]]|]; try (injection E as <-; apply RtInGraph; try assumption; intros; discriminate).
    unfold put in E. destruct (kkey c KIncluded) as [ki|] eqn:KI; cbn [bind] in E; [|discriminate]. injection E as <-. apply RtInGraphs; eauto.
  - unfold compact_property_list in *. destruct (compact_collection o rec l c c (Some key)) as [j|] eqn:CC; cbn [bind] in *; [|discriminate].
    pose proof (collection_content _ _ _ _ CC) as CN. clear CC.
    assert (EJ : match j with JArr _ => j | _ => JArr [j] end = JArr (match j with JArr a => a | v => [v] end)) by (destruct j; reflexivity). rewrite EJ in *.
    destruct (c_contains (container_of c key) CKList) eqn:KL; cbn [negb] in *.
    { apply has_spec in KL. destruct CN as (js & M & [[_ X]|[-> _]]); [destruct X; unfold single_array; tauto|]. eexists [], true, _. split; [exact (RtListed c key ix l js KL M)|]. left. split; [reflexivity|]. intros m. reflexivity. }
    apply has_not in KL. unfold put at 1 in H. destruct (kkey c KList) as [kl|] eqn:KK; cbn [bind] in H; [|discriminate].
    match type of H with bind ?r _ = _ => destruct r as [x3|] eqn:E3 end; cbn [bind] in H; [|discriminate].
    exists [], false, (JObj x3). split; [|left; split; [reflexivity|]; intros m; unfold put at 1; rewrite KK; cbn [bind]; rewrite E3; reflexivity].
    destruct ix as [i|].
    + unfold put in E3. destruct (kkey c KIndex) as [ki|] eqn:KI; cbn [bind] in E3; [|discriminate]. injection E3 as <-.
      exact (RtList c key (Some i) l j _ kl ki _ KL CN eq_refl KK KI eq_refl).
    + injection E3 as <-. exact (RtList c key None l j _ kl "" _ KL CN eq_refl KK I eq_refl).
Qed.

(** ** Items, properties *)
Lemma nest_place c key f m m' : with_nest m c key f = Ok m' ->
  exists pre, nest_of c key pre /\ ((pre = [] /\ f m = Ok m') \/ exists n, pre = [n] /\ in_map m n f = Ok m').
Proof.
  unfold with_nest, nest_of. destruct (prop_def c (Some key)) as [d|]; [|intros H; exists []; auto].
  destruct (nd_nest d) as [[|t]|]; [intros H; exists ["@nest"]; split; [reflexivity|right; exists "@nest"; auto]| |intros H; exists []; auto].
  destruct (get_value c t) as [[[| |[]]|]|]; try discriminate. intros H. exists [t]. split; [auto|]. right. exists t. auto.
Qed.
(** The part put by an action, possibly in a nested object. *)
Lemma acts_place key pre rest a al v f m m' : acts key rest a al v f ->
  (pre = [] /\ f m = Ok m') \/ (exists n, pre = [n] /\ in_map m n f = Ok m') ->
  exists q k, pre ++ key :: rest = q ++ [k] /\ place q k (place_last a al v) m = Ok m'.
Proof.
  intros [[-> A]|(k & -> & A)] [[-> F]|(n & -> & F)]; cbn [app].
  - exists [], key. split; [reflexivity|]. rewrite A in F. exact F.
  - exists [n], key. split; [reflexivity|]. rewrite (in_map_ext m n f (place_last a al v key) A) in F. exact F.
  - exists [key], k. split; [reflexivity|]. rewrite A in F. exact F.
  - exists [n; key], k. split; [reflexivity|]. rewrite (in_map_ext m n f _ A) in F. exact F.
Qed.
Lemma place_once q k a al v m m' : NoDup (keys m) -> place q k (place_last a al v) m = Ok m' -> NoDup (keys m').
Proof.
  intros N. destruct q as [|h q]; cbn [place].
  - unfold place_last. destruct al; [intros H; injection H as <-; apply nodup_insert; exact N|].
    unfold kadd. destruct (add_value_ok v m k a N) as (m1 & -> & N1 & _). intros H. injection H as <-. exact N1.
  - intros H. destruct (in_map_ok _ _ _ _ N H) as (x & x' & _ & -> & _). apply nodup_insert. exact N.
Qed.
Lemma item_place t c r m x m' : t <> TmNull -> compact_item rel o rec t c r m x = Ok m' ->
  exists p, puts c r t x p /\ (NoDup (keys m) -> NoDup (keys m')) /\ forall ps, placed m ps -> clear (ps ++ [p]) -> placed m' (ps ++ [p]).
Proof.
  intros NT H. unfold compact_item in H. destruct (kiri_with c t x r) as [[key|]|] eqn:K; cbn [bind] in H; try discriminate.
  2:{ destruct (kiri_with_some _ _ _ _ _ _ NT K). }
  change (with_nest m c key (item_body x c key) = Ok m') in H. destruct (nest_place _ _ _ _ _ H) as (pre & N & P).
  assert (B : exists m1 m2, item_body x c key m1 = Ok m2).
  { destruct P as [[_ P]|(n & _ & P)]; [eauto|apply in_map_inv in P; exact P]. }
  destruct B as (m1 & m2 & B). destruct (body_route _ _ _ _ _ B) as (rest & al & v & R & A).
  destruct (acts_place _ _ _ _ _ _ _ _ _ A P) as (q & k & E & PL).
  exists (MkPart (q ++ [k]) (as_array_for o c key) al v). split.
  - exists key, pre, rest. cbn. split; [exact K|]. split; [exact N|]. split; [symmetry; exact E|]. split; [exact R|]. apply arrayed_spec.
  - split; [intros N0; exact (place_once _ _ _ _ _ _ _ N0 PL)|]. intros ps Pm CL. exact (place_add _ _ _ _ _ _ _ _ Pm CL PL).
Qed.
Lemma items_placed t c r l : t <> TmNull -> forall m m', fold_r (compact_item rel o rec t c r) m l = Ok m' ->
  exists ps', Forall2 (puts c r t) l ps' /\ (NoDup (keys m) -> NoDup (keys m')) /\ forall ps, placed m ps -> clear (ps ++ ps') -> placed m' (ps ++ ps').
Proof.
  intros NT. induction l as [|x l IH]; intros m m' H; cbn [fold_r] in H.
  - injection H as <-. exists []. split; [constructor|]. split; [auto|]. intros ps P _. rewrite app_nil_r. exact P.
  - destruct (compact_item rel o rec t c r m x) as [m1|] eqn:E; [|discriminate]. destruct (item_place _ _ _ _ _ _ NT E) as (p & Pp & O1 & S).
    destruct (IH _ _ H) as (ps' & F & O2 & S'). exists (p :: ps'). split; [constructor; assumption|]. split; [auto|]. intros ps P CL.
    change (p :: ps') with ([p] ++ ps') in *. rewrite app_assoc in *. apply S'; [|exact CL]. apply S; [exact P|]. exact (clear_app _ _ CL).
Qed.
Lemma property_placed t c r l m m' : t <> TmNull -> compact_property rel o rec t l c r m = Ok m' ->
  exists ps', put_by c r t l ps' /\ (NoDup (keys m) -> NoDup (keys m')) /\ forall ps, placed m ps -> clear (ps ++ ps') -> placed m' (ps ++ ps').
Proof.
  intros NT H. unfold compact_property in H. destruct l as [|x l].
  - destruct (kiri_with c t (None, ONode (node_new None)) r) as [[key|]|] eqn:K; cbn [bind] in H; try discriminate.
    2:{ destruct (kiri_with_some _ _ _ _ _ _ NT K). }
    destruct (nest_place _ _ _ _ _ H) as (pre & N & P). exists [MkPart (pre ++ [key]) true false (JArr [])]. split; [exists key, pre; auto|].
    assert (A : acts key [] true false (JArr []) (fun m => kadd m key (JArr []) true)) by (left; split; [reflexivity|intros m0; reflexivity]).
    destruct (acts_place _ _ _ _ _ _ _ _ _ A P) as (q & k & E & PL). split; [intros N0; exact (place_once _ _ _ _ _ _ _ N0 PL)|]. intros ps Pm CL. rewrite E in *. exact (place_add _ _ _ _ _ _ _ _ Pm CL PL).
  - exact (items_placed t c r (x :: l) NT m m' H).
Qed.
Lemma properties_placed c r ps : forall m m',
  fold_r (fun m (e : id * list iobj) => compact_property rel o rec (TmId (fst e)) (snd e) c r m) m ps = Ok m' ->
  exists pss, Forall2 (fun e qs => put_by c r (TmId (fst e)) (snd e) qs) ps pss /\ (NoDup (keys m) -> NoDup (keys m')) /\
    forall qs, placed m qs -> clear (qs ++ concat pss) -> placed m' (qs ++ concat pss).
Proof.
  induction ps as [|e ps IH]; intros m m' H; cbn [fold_r] in H.
  - injection H as <-. exists []. split; [constructor|]. split; [auto|]. intros qs P _. cbn. rewrite app_nil_r. exact P.
  - destruct (compact_property rel o rec (TmId (fst e)) (snd e) c r m) as [m1|] eqn:E; [|discriminate].
    destruct (property_placed (TmId (fst e)) c r (snd e) m m1 ltac:(discriminate) E) as (p & Pp & O1 & S).
    destruct (IH _ _ H) as (pss & F & O2 & S'). exists (p :: pss). split; [constructor; assumption|]. split; [auto|]. intros qs P CL. cbn [concat] in *.
    rewrite app_assoc in *. apply S'; [|exact CL]. apply S; [exact P|]. exact (clear_app _ _ CL).
Qed.
End Parts.

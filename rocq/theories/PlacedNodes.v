(** Compaction: the parts of a node. *)
From Verif Require Import Prelude Json Str Keyword Enums LangTag LangString Container Stack ContextSyntax Ctx Inverse Process
  Object ObjectJson AddValue CompactIri CompactIriTerm Expand Compact CompactValue CompactProofs CompactKept Placed PlacedItems.

Section Nodes.
Variables (io : iops) (ld : loader) (rel : string -> string -> string) (pf : nat) (o : copts).
Variable rec : option string -> obj -> actx -> actx -> option string -> result json kerr.
Notation kiri := (kiri rel o).
Notation kkey := (kkey rel o).
Notation put := (put rel o).
Notation put_by := (put_by rel o rec).

(** ** Specification *)
Definition as_objects (l : list inode) : list iobj := map (fun x => (fst x, ONode (snd x))) l.
Definition id_parts (c : actx) (i : option id) (ps : list part) : Prop :=
  match i with
  | None => ps = []
  | Some i => exists k s, kkey c KId = Ok k /\ kiri c (TmId i) false = Ok (Some s) /\ ps = [MkPart [k] false true (JStr s)]
  end.
(** The types, in the context [tsc]. *)
Definition type_parts (tsc c : actx) (ts : option (list id)) (ps : list part) : Prop :=
  match opt_list ts with
  | [] => ps = []
  | ts => exists k ss a, kkey c KType = Ok k /\ Forall2 (fun t s => kiri tsc (TmId t) true = Ok (Some s)) ts ss /\
      (a = true <-> (co_mode o = JsonLd11 /\ has c k CKSet) \/ co_arrays o = false) /\
      ps = [MkPart [k] a false (match ss with [s] => JStr s | _ => JArr (map JStr ss) end)]
  end.
(** Reverse properties make an object [r]: its reverse terms are moved to the node, the other keys
    to [@reverse]. *)
Definition is_reverse (c : actx) (e : string * json) : bool :=
  match prop_def c (Some (fst e)) with Some d => nd_reverse d | None => false end.
Definition reverse_parts (c : actx) (rs : option (list (id * list inode))) (c' : actx) (ps : list part) : Prop :=
  match opt_list rs with
  | [] => c' = c /\ ps = []
  | rs => scoped io ld pf o c c (Some "@reverse") = Ok c' /\
      exists r qss moved, Forall2 (fun e qs => put_by c' true (TmId (fst e)) (as_objects (snd e)) qs) rs qss /\
        NoDup (keys r) /\ (clear (concat qss) -> placed r (concat qss)) /\
        Forall2 (fun e p => pt_path p = [fst e] /\ pt_alone p = false /\ pt_value p = snd e /\ (pt_array p = true <-> has c' (fst e) CKSet \/ co_arrays o = false))
          (filter (is_reverse c') r) moved /\
        match filter (fun e => negb (is_reverse c' e)) r with
        | [] => ps = moved
        | r' => exists k, kkey c' KReverse = Ok k /\ ps = moved ++ [MkPart [k] false true (JObj r')]
        end
  end.
Definition index_parts (c : actx) (ap : option string) (index : option string) (ps : list part) : Prop :=
  match index with
  | Some i => (kept_in c ap CKIndex /\ ps = []) \/ (~ kept_in c ap CKIndex /\ exists k, kkey c KIndex = Ok k /\ ps = [MkPart [k] false true (JStr i)])
  | None => ps = []
  end.
(** All the parts of a node: [c] is the context of the node, [c'] that of its properties. *)
Definition node_parts (n : node) (index : option string) (c tsc : actx) (ap : option string) (c' : actx) (ps : list part) : Prop :=
  exists pi pt pr px pg pss pn,
    id_parts c (n_id n) pi /\ type_parts tsc c (n_types n) pt /\ reverse_parts c (n_reverse n) c' pr /\ index_parts c' ap index px /\
    match n_graph n with Some g => put_by c' false (TmKw KGraph) g pg | None => pg = [] end /\
    Forall2 (fun e qs => put_by c' false (TmId (fst e)) (snd e) qs)
      (if co_ordered o then sort_key (fun e : id * list iobj => id_str (fst e)) (n_props n) else n_props n) pss /\
    match n_included n with Some l => put_by c' false (TmKw KIncluded) (as_objects l) pn | None => pn = [] end /\
    ps = pi ++ pt ++ pr ++ px ++ pg ++ concat pss ++ pn.

(** ** Proofs *)
Definition stage (m m' : jobject) (qs : list part) : Prop :=
  (NoDup (keys m) -> NoDup (keys m')) /\ forall ps, placed m ps -> clear (ps ++ qs) -> placed m' (ps ++ qs).
Lemma stage_nil m : stage m m [].
Proof. split; [auto|]. intros ps P _. rewrite app_nil_r. exact P. Qed.
Lemma stage_trans m m1 m2 q1 q2 : stage m m1 q1 -> stage m1 m2 q2 -> stage m m2 (q1 ++ q2).
Proof.
  intros [N1 S1] [N2 S2]. split; [auto|]. intros ps P CL. rewrite app_assoc in *. apply S2; [|exact CL]. apply S1; [exact P|]. exact (clear_app _ _ CL).
Qed.
Lemma stage_insert m k v : stage m (insert k v m) [MkPart [k] false true v].
Proof.
  split; [apply nodup_insert|]. intros ps P CL. apply (place_add false true v [] k m ps (insert k v m) P CL). reflexivity.
Qed.
Lemma stage_add m k v a m' : kadd m k v a = Ok m' -> stage m m' [MkPart [k] a false v].
Proof.
  intros H. split.
  - intros N. unfold kadd in H. destruct (add_value_ok v m k a N) as (m1 & E & N1 & _). rewrite E in H. injection H as <-. exact N1.
  - intros ps P CL. exact (place_add a false v [] k m ps m' P CL H).
Qed.
Lemma stage_put c kw v m m' : put c kw v m = Ok m' -> exists k, kkey c kw = Ok k /\ stage m m' [MkPart [k] false true v].
Proof.
  unfold Compact.put. destruct (kkey c kw) as [k|]; cbn [bind]; [|discriminate]. intros H. injection H as <-. exists k. split; [reflexivity|apply stage_insert].
Qed.
Lemma types_stage tsc c ts m m' : compact_types rel o tsc c ts m = Ok m' -> exists ps, type_parts tsc c ts ps /\ stage m m' ps.
Proof.
  unfold compact_types, type_parts. destruct (opt_list ts) as [|t0 l0]; [intros H; injection H as <-; exists []; split; [reflexivity|apply stage_nil]|].
  assert (T : forall l js, map_r (fun t => do s <- kiri tsc (TmId t) true ; Ok (opt_string s)) l = Ok js ->
    exists ss, Forall2 (fun t s => kiri tsc (TmId t) true = Ok (Some s)) l ss /\ js = map JStr ss).
  { induction l as [|t l IH]; intros js H; cbn [map_r] in H; [injection H as <-; exists []; split; constructor|].
    destruct (kiri tsc (TmId t) true) as [[s|]|] eqn:K; cbn [bind] in H; [|destruct (kiri_some _ _ _ _ _ K)|discriminate].
    destruct (map_r _ l) as [js'|]; cbn [bind] in H; [|discriminate]. injection H as <-. destruct (IH _ eq_refl) as (ss & F & ->). exists (s :: ss). split; [constructor; assumption|reflexivity]. }
  match goal with |- bind ?r _ = _ -> _ => destruct r as [v|] eqn:V end; cbn [bind]; [|discriminate].
  destruct (kkey c KType) as [k|] eqn:K; cbn [bind]; [|discriminate]. intros H.
  assert (S : exists ss, Forall2 (fun t s => kiri tsc (TmId t) true = Ok (Some s)) (t0 :: l0) ss /\ v = match ss with [s] => JStr s | _ => JArr (map JStr ss) end).
  { destruct l0 as [|t1 l0].
    - destruct (kiri tsc (TmId t0) true) as [[s|]|] eqn:KT; cbn [bind] in V; [|destruct (kiri_some _ _ _ _ _ KT)|discriminate]. injection V as <-. exists [s]. split; [repeat constructor; exact KT|reflexivity].
    - match type of V with bind ?r _ = _ => destruct r as [js|] eqn:J end; cbn [bind] in V; [|discriminate]. injection V as <-. destruct (T _ _ J) as (ss & F & ->). exists ss. split; [exact F|].
      inversion F as [|? ? ? ? _ F1]; subst. inversion F1; subst. reflexivity. }
  destruct S as (ss & F & ->). eexists. split; [exists k, ss; eexists; split; [reflexivity|]; split; [exact F|]; split; [|reflexivity]|exact (stage_add _ _ _ _ _ H)].
  rewrite orb_true_iff, negb_true_iff. apply or_iff_compat_r. destruct (co_mode o); [|rewrite has_spec; tauto]. split; [discriminate|intros [X _]; discriminate X].
Qed.
Lemma insert_new k (v : json) m : ~ In k (keys m) -> insert k v m = m ++ [(k, v)].
Proof.
  induction m as [|[k' w] m IH]; intros N; [reflexivity|]. cbn [insert keys map fst In app] in *. destruct (streq_spec k' k) as [->|_]; [tauto|]. rewrite IH by tauto. reflexivity.
Qed.
Lemma reverse_fold c r : forall m r0 m' r', NoDup (keys (r0 ++ r)) -> fold_r (reverse_step o c) (m, r0) r = Ok (m', r') ->
  exists moved, Forall2 (fun e p => pt_path p = [fst e] /\ pt_alone p = false /\ pt_value p = snd e /\ (pt_array p = true <-> has c (fst e) CKSet \/ co_arrays o = false))
    (filter (is_reverse c) r) moved /\ stage m m' moved /\ r' = r0 ++ filter (fun e => negb (is_reverse c e)) r.
Proof.
  induction r as [|[k v] r IH]; intros m r0 m' r' N H; cbn [fold_r] in H.
  - injection H as <- <-. exists []. cbn. rewrite app_nil_r. split; [constructor|]. split; [apply stage_nil|reflexivity].
  - unfold reverse_step in H at 1. cbn [filter]. change (match prop_def c (Some k) with Some d => nd_reverse d | None => false end) with (is_reverse c (k, v)) in H.
    assert (N' : ~ In k (keys (r0 ++ r)) /\ NoDup (keys (r0 ++ r))).
    { unfold keys in *. rewrite map_app in *. cbn [map fst] in N. split; [exact (NoDup_remove_2 _ _ _ N)|exact (NoDup_remove_1 _ _ _ N)]. }
    destruct (is_reverse c (k, v)); cbn [negb].
    + destruct (kadd m k v _) as [m1|] eqn:K in H; cbn [bind] in H; [|discriminate]. destruct (IH _ _ _ _ (proj2 N') H) as (mv & F & S & ->).
      eexists (MkPart [k] _ false v :: mv). split; [constructor; [|exact F]|split; [exact (stage_trans _ _ _ [_] mv (stage_add _ _ _ _ _ K) S)|reflexivity]].
      cbn. split; [reflexivity|]. split; [reflexivity|]. split; [reflexivity|]. rewrite orb_true_iff, negb_true_iff, has_spec. tauto.
    + rewrite insert_new in H by (intros X; apply (proj1 N'); unfold keys in *; rewrite map_app; apply in_or_app; auto).
      destruct (IH m (r0 ++ [(k, v)]) m' r') as (mv & F & S & ->); [rewrite <- app_assoc; exact N|exact H|]. exists mv. rewrite <- app_assoc. auto.
Qed.
Lemma reverse_stage rs c m c' m' :
  (match opt_list rs with
   | [] => Ok (c, m)
   | rs => do c <- scoped io ld pf o c c (Some "@reverse") ;
       do r <- fold_r (fun r (e : id * list inode) => compact_property rel o rec (TmId (fst e)) (map (fun x : inode => (fst x, ONode (snd x))) (snd e)) c true r) [] rs ;
       do (m, r) <- fold_r (reverse_step o c) (m, []) r ;
       do m <- (match r with [] => Ok m | _ => put c KReverse (JObj r) m end) ;
       Ok (c, m)
   end) = Ok (c', m') -> exists ps, reverse_parts c rs c' ps /\ stage m m' ps.
Proof.
  unfold reverse_parts. destruct (opt_list rs) as [|e0 rs0]; [intros H; injection H as <- <-; exists []; split; [auto|apply stage_nil]|].
  destruct (scoped io ld pf o c c (Some "@reverse")) as [c1|]; cbn [bind]; [|discriminate].
  match goal with |- bind ?e _ = _ -> _ => destruct e as [r|] eqn:R end; cbn [bind]; [|discriminate].
  assert (RP : exists qss, Forall2 (fun e qs => put_by c1 true (TmId (fst e)) (as_objects (snd e)) qs) (e0 :: rs0) qss /\ stage [] r (concat qss)).
  { revert R. generalize (e0 :: rs0) as l. generalize (@nil (string * json)) as a. intros a l. revert a. induction l as [|e l IH]; intros a R; cbn [fold_r] in R.
    - injection R as <-. exists []. split; [constructor|apply stage_nil].
    - destruct (compact_property rel o rec (TmId (fst e)) _ c1 true a) as [a1|] eqn:E; [|discriminate].
      destruct (property_placed rel o rec (TmId (fst e)) c1 true _ a a1 ltac:(discriminate) E) as (q & P & S). destruct (IH _ R) as (qss & F & S2).
      exists (q :: qss). split; [constructor; assumption|]. exact (stage_trans _ _ _ _ _ S S2). }
  destruct RP as (qss & F & [Nr Sr]). specialize (Nr nil_once). specialize (Sr [] placed_nil).
  destruct (fold_r (reverse_step o c1) (m, []) r) as [[m1 r1]|] eqn:RF; cbn [bind]; [|discriminate].
  destruct (reverse_fold c1 r m [] m1 r1 Nr RF) as (mv & FM & SM & ER). cbn [app] in ER. intros H.
  match type of H with bind ?r _ = _ => destruct r as [m2|] eqn:P end; cbn [bind] in H; [|discriminate]. injection H as <- <-.
  destruct r1 as [|e r1].
  - injection P as <-. exists mv. split; [|exact SM]. split; [reflexivity|]. exists r, qss, mv. rewrite <- ER. auto 10.
  - destruct (stage_put _ _ _ _ _ P) as (k & K & S). exists (mv ++ [MkPart [k] false true (JObj (e :: r1))]). split; [|exact (stage_trans _ _ _ _ _ SM S)].
    split; [reflexivity|]. exists r, qss, mv. rewrite <- ER. eauto 10.
Qed.
Lemma kiri_kw_some c k : kiri c (TmKw k) true <> Ok None.
Proof.
  intros K. unfold Compact.kiri in K. destruct (compact_iri rel c (co_mode o) (TmKw k) true false) as [[s|]|[]] eqn:E; try discriminate.
  unfold compact_iri, compact_body, compact_tail in E. clear - E.
  match type of E with bind ?r _ = _ => destruct r as [[s|]|] end; cbn [bind] in E; try discriminate.
  destruct (by_vocab _ _); try discriminate; destruct (negb _); discriminate.
Qed.
Lemma index_stage c ap index m m' :
  match index with
  | Some i => if c_contains (container_ap c ap) CKIndex then Ok m else put c KIndex (JStr i) m
  | None => Ok m
  end = Ok m' -> exists px, index_parts c ap index px /\ stage m m' px.
Proof.
  unfold index_parts. destruct index as [i|]; [|intros H; injection H as <-; exists []; split; [reflexivity|apply stage_nil]].
  destruct (c_contains (container_ap c ap) CKIndex) eqn:K.
  - intros H. injection H as <-. apply kept_in_spec in K. exists []. split; [auto|apply stage_nil].
  - intros H. destruct (stage_put _ _ _ _ _ H) as (k & KK & S). eexists. split; [right; split; [rewrite <- kept_in_spec; congruence|exists k; split; [exact KK|reflexivity]]|exact S].
Qed.
Lemma node_stage n index c tsc ap m : compact_node_in io ld rel pf o rec n index c tsc ap = Ok (JObj m) ->
  exists c' ps, node_parts n index c tsc ap c' ps /\ stage [] m ps.
Proof.
  intros H.
  assert (B : exists m0 pi, id_parts c (n_id n) pi /\ stage [] m0 pi /\ compact_node_body io ld rel pf o rec n index c tsc ap m0 = Ok (JObj m)).
  { unfold compact_node_in in H. destruct (n_id n) as [i|]; [|exists [], []; split; [reflexivity|split; [apply stage_nil|exact H]]].
    assert (Z : (do s <- kiri c (TmId i) false ; do alias <- kiri c (TmKw KId) true ;
     compact_node_body io ld rel pf o rec n index c tsc ap (match alias with Some k => insert k (opt_string s) [] | None => [] end)) = Ok (JObj m) ->
     exists m0 pi, id_parts c (Some i) pi /\ stage [] m0 pi /\ compact_node_body io ld rel pf o rec n index c tsc ap m0 = Ok (JObj m)).
    { intros E. destruct (kiri c (TmId i) false) as [[s|]|] eqn:K1; cbn [bind] in E; [|destruct (kiri_some _ _ _ _ _ K1)|discriminate].
      destruct (kiri c (TmKw KId) true) as [[k|]|] eqn:K2; cbn [bind] in E; [|destruct (kiri_kw_some _ _ K2)|discriminate].
      exists (insert k (JStr s) []), [MkPart [k] false true (JStr s)]. split; [|split; [apply stage_insert|exact E]].
      exists k, s. split; [unfold Compact.kkey; rewrite K2; reflexivity|]. split; [exact K1|reflexivity]. }
    assert (Y : forall v, (do s <- kiri c (TmId i) v ; Ok (opt_string s)) = Ok (JObj m) -> False).
    { intros v E. destruct (kiri c (TmId i) v) as [[s|]|]; discriminate. }
    destruct (if n_empty n then _ else _) as [[]|]; try exact (Z H); destruct (Y _ H). }
  clear H. destruct B as (m0 & pi & Pi & S0 & H). unfold compact_node_body in H.
  destruct (compact_types rel o tsc c (n_types n) m0) as [m1|] eqn:E1; cbn [bind] in H; [|discriminate]. destruct (types_stage _ _ _ _ _ E1) as (pt & Pt & S1). clear E1.
  match type of H with bind ?r _ = _ => destruct r as [[c' m2]|] eqn:E2 end; cbn [bind] in H; [|discriminate]. destruct (reverse_stage _ _ _ _ _ E2) as (pr & Pr & S2). clear E2.
  match type of H with bind ?r _ = _ => destruct r as [m3|] eqn:E3 end; cbn [bind] in H; [|discriminate].
  pose proof (index_stage _ _ _ _ _ E3) as X3.
  destruct X3 as (px & Px & S3). clear E3.
  match type of H with bind ?r _ = _ => destruct r as [m4|] eqn:E4 end; cbn [bind] in H; [|discriminate].
  assert (X4 : exists pg, match n_graph n with Some g => put_by c' false (TmKw KGraph) g pg | None => pg = [] end /\ stage m3 m4 pg).
  { destruct (n_graph n) as [g|]; [|injection E4 as <-; exists []; split; [reflexivity|apply stage_nil]]. exact (property_placed rel o rec (TmKw KGraph) c' false g m3 m4 ltac:(discriminate) E4). }
  destruct X4 as (pg & Pg & S4). clear E4.
  match type of H with bind ?r _ = _ => destruct r as [m5|] eqn:E5 end; cbn [bind] in H; [|discriminate].
  destruct (properties_placed rel o rec c' false _ _ _ E5) as (pss & Pss & S5). clear E5.
  match type of H with bind ?r _ = _ => destruct r as [m6|] eqn:E6 end; cbn [bind] in H; [|discriminate]. injection H as <-.
  assert (X6 : exists pn, match n_included n with Some l => put_by c' false (TmKw KIncluded) (as_objects l) pn | None => pn = [] end /\ stage m5 m6 pn).
  { destruct (n_included n) as [l|]; [|injection E6 as <-; exists []; split; [reflexivity|apply stage_nil]]. exact (property_placed rel o rec (TmKw KIncluded) c' false _ m5 m6 ltac:(discriminate) E6). }
  destruct X6 as (pn & Pn & S6).
  exists c', (pi ++ pt ++ pr ++ px ++ pg ++ concat pss ++ pn). split; [exists pi, pt, pr, px, pg, pss, pn; auto 12|].
  repeat (eapply stage_trans; [eassumption|]). exact S6.
Qed.

(** ** List objects *)
Definition list_parts (l : list iobj) (index : option string) (c : actx) (ap : option string) (ps : list part) : Prop :=
  exists pl px, put_by c false (TmKw KList) l pl /\ index_parts c ap index px /\ ps = pl ++ px.
Lemma list_stage l index c ap m :
  (do m <- compact_property rel o rec (TmKw KList) l c false [] ;
   do m <- (match index with
            | Some i => if c_contains (container_ap c ap) CKIndex then Ok m else put c KIndex (JStr i) m
            | None => Ok m
            end) ;
   Ok (JObj m)) = Ok (JObj m) -> exists ps, list_parts l index c ap ps /\ stage [] m ps.
Proof.
  intros H. destruct (compact_property _ _ _ _ _ _ _ _) as [m1|] eqn:E1; cbn [bind] in H; [|discriminate].
  destruct (property_placed rel o rec (TmKw KList) c false l [] m1 ltac:(discriminate) E1) as (pl & Pl & S1).
  match type of H with bind ?r _ = _ => destruct r as [m2|] eqn:E2 end; cbn [bind] in H; [|discriminate]. injection H as <-.
  destruct (index_stage _ _ _ _ _ E2) as (px & Px & S2). exists (pl ++ px). split; [exists pl, px; auto|]. exact (stage_trans _ _ _ _ _ S1 S2).
Qed.
End Nodes.

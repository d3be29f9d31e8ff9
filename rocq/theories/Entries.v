(** The entries of an expanded object: iterators of core/src/object/{mod,value}.rs and object/node/mod.rs. *)
From Coq Require Import Permutation Lia.
From Verif Require Import Prelude Json Enums LangTag LangString Str Keyword Container ContextSyntax Ctx Object ObjectEq ObjectJson ObjectJsonProofs Traverse.

(** ** Model *)

(** value.rs 457-464: the iterator over the entries of a value; 237-258. *)
Record vstate : Type := MkVS { vs_value : option value; vs_type : option (option string); vs_lang : option string; vs_dir : option direction }.
Definition v_start (v : value) : vstate :=
  match v with
  | VLit _ t => MkVS (Some v) (option_map Some t) None None
  | VLang s => MkVS (Some v) None (ls_language s) (ls_direction s)
  | VJson _ => MkVS (Some v) (Some None) None None
  end.
(** value.rs 491-500. *)
Definition v_next (s : vstate) : option (ventry * vstate) :=
  match s with
  | MkVS (Some v) t l d => Some (VEVal v, MkVS None t l d)
  | MkVS None (Some t) l d => Some (VEType t, MkVS None None l d)
  | MkVS None None (Some l) d => Some (VELang l, MkVS None None None d)
  | MkVS None None None (Some d) => Some (VEDir d, MkVS None None None None)
  | MkVS None None None None => None
  end.
(** value.rs 506-515. *)
Definition v_back (s : vstate) : option (ventry * vstate) :=
  match s with
  | MkVS v t l (Some d) => Some (VEDir d, MkVS v t l None)
  | MkVS v t (Some l) None => Some (VELang l, MkVS v t None None)
  | MkVS v (Some t) None None => Some (VEType t, MkVS v None None None)
  | MkVS (Some v) None None None => Some (VEVal v, MkVS None None None None)
  | MkVS None None None None => None
  end.
Definition present {A} (o : option A) : nat := match o with Some _ => 1 | None => 0 end.
(** value.rs 469-489. *)
Definition v_hint (s : vstate) : nat := present (vs_value s) + present (vs_type s) + present (vs_lang s) + present (vs_dir s).

(** node/mod.rs 453-462, 899-908: what is left is a node; 939-953. *)
Definition n_next (n : node) : option (nentry * node) :=
  match n with
  | MkNode (Some i) ts g inc ps rs => Some (NEId i, MkNode None ts g inc ps rs)
  | MkNode None (Some ts) g inc ps rs => Some (NEType ts, MkNode None None g inc ps rs)
  | MkNode None None (Some g) inc ps rs => Some (NEGraph g, MkNode None None None inc ps rs)
  | MkNode None None None (Some inc) ps rs => Some (NEIncluded inc, MkNode None None None None ps rs)
  | MkNode None None None None ps (Some rs) => Some (NEReverse rs, MkNode None None None None ps None)
  | MkNode None None None None (p :: ps) None => Some (NEProp (fst p) (snd p), MkNode None None None None ps None)
  | MkNode None None None None [] None => None
  end.
(** node/mod.rs 913-937. *)
Definition n_hint (n : node) : nat :=
  match n with MkNode i ts g inc ps rs => length ps + present i + present ts + present g + present inc + present rs end.

(** object/mod.rs 397-404, 501-507, 621-626. *)
Inductive oentry : Type := OEVal (e : ventry) | OEList (l : list iobj) | OENode (e : nentry).
Inductive ostate : Type := OsVal (s : vstate) | OsList (l : option (list iobj)) | OsNode (n : node).
Definition o_start (o : obj) : ostate := match o with OVal v => OsVal (v_start v) | OList l => OsList (Some l) | ONode n => OsNode n end.
(** object/mod.rs 512-528. *)
Definition o_hint (s : ostate) : nat := match s with OsVal s => v_hint s | OsList l => present l | OsNode n => n_hint n end.
Definition o_next (s : ostate) : option (oentry * ostate) :=
  match s with
  | OsVal s => match v_next s with Some (e, s') => Some (OEVal e, OsVal s') | None => None end
  | OsList (Some l) => Some (OEList l, OsList None)
  | OsList None => None
  | OsNode n => match n_next n with Some (e, n') => Some (OENode e, OsNode n') | None => None end
  end.
(** object/mod.rs 493-498, 533-554. *)
Inductive ientry : Type := IEIndex (i : string) | IEObj (e : oentry).
Definition istate : Type := (option string * ostate)%type.
Definition i_start (x : iobj) : istate := (fst x, o_start (snd x)).
Definition i_hint (s : istate) : nat := o_hint (snd s) + present (fst s).
Definition i_next (s : istate) : option (ientry * istate) :=
  match s with
  | (Some i, s) => Some (IEIndex i, (None, s))
  | (None, s) => match o_next s with Some (e, s') => Some (IEObj e, (None, s')) | None => None end
  end.

(** The keys as strings: value.rs 443-450, node/mod.rs 760-773, object/mod.rs 579-589, 688-697 ([into_str]). *)
Definition ventry_key (e : ventry) : string := match e with VEVal _ => "@value" | VEType _ => "@type" | VELang _ => "@language" | VEDir _ => "@direction" end.
Definition nentry_key (e : nentry) : string :=
  match e with NEId _ => "@id" | NEType _ => "@type" | NEGraph _ => "@graph" | NEIncluded _ => "@included" | NEReverse _ => "@reverse" | NEProp k _ => id_str k end.
Definition oentry_key (e : oentry) : string := match e with OEVal e => ventry_key e | OEList _ => "@list" | OENode e => nentry_key e end.
Definition ientry_key (e : ientry) : string := match e with IEIndex _ => "@index" | IEObj e => oentry_key e end.
(** object/mod.rs 708-717 ([into_ref_with]): the index has the key of values. *)
Definition ientry_key_with (e : ientry) : string := match e with IEIndex _ => "@value" | IEObj e => oentry_key e end.
(** The keys as keywords: value.rs 430-437, node/mod.rs 745-754, object/mod.rs 567-573, 677-682 ([into_keyword]). *)
Definition ventry_kw (e : ventry) : keyword := match e with VEVal _ => KValue | VEType _ => KType | VELang _ => KLanguage | VEDir _ => KDirection end.
Definition nentry_kw (e : nentry) : option keyword :=
  match e with NEId _ => Some KId | NEType _ => Some KType | NEGraph _ => Some KGraph | NEIncluded _ => Some KIncluded | NEReverse _ => Some KReverse | NEProp _ _ => None end.
Definition oentry_kw (e : oentry) : option keyword := match e with OEVal e => Some (ventry_kw e) | OEList _ => Some KList | OENode e => nentry_kw e end.
Definition ientry_kw (e : ientry) : option keyword := match e with IEIndex _ => Some KIndex | IEObj e => oentry_kw e end.
(** node/mod.rs 546-556, properties.rs 69-71 ([has_key]). *)
Definition node_has_key (n : node) (t : term) : bool :=
  match n, t with
  | MkNode i _ _ _ _ _, TmKw KId => is_some i
  | MkNode _ ts _ _ _ _, TmKw KType => is_some ts
  | MkNode _ _ g _ _ _, TmKw KGraph => is_some g
  | MkNode _ _ _ inc _ _, TmKw KIncluded => is_some inc
  | MkNode _ _ _ _ _ rs, TmKw KReverse => is_some rs
  | MkNode _ _ _ _ ps _, TmId p => existsb (fun q => id_eqb p (fst q)) ps
  | _, _ => false
  end.

(** ** Specification *)

(** The entries of an object, in order. *)
Definition maybe {A B} (f : A -> B) (o : option A) : list B := match o with Some a => [f a] | None => [] end.
Definition entries_of_value (v : value) : list ventry :=
  VEVal v :: match v with
             | VLit _ t => maybe (fun t => VEType (Some t)) t
             | VLang s => maybe VELang (ls_language s) ++ maybe VEDir (ls_direction s)
             | VJson _ => [VEType None]
             end.
Definition entries_of_node (n : node) : list nentry :=
  maybe NEId (n_id n) ++ maybe NEType (n_types n) ++ maybe NEGraph (n_graph n) ++ maybe NEIncluded (n_included n) ++ maybe NEReverse (n_reverse n)
  ++ map (fun p => NEProp (fst p) (snd p)) (n_props n).
Definition entries_of_object (x : iobj) : list ientry :=
  maybe IEIndex (fst x) ++ map IEObj (match snd x with
                                      | OVal v => map OEVal (entries_of_value v)
                                      | OList l => [OEList l]
                                      | ONode n => map OENode (entries_of_node n)
                                      end).
(** Taking from either end of a list: what is taken, and what is left. *)
Inductive side : Type := Front | Back.
Definition take_front {A} (l : list A) : option (A * list A) := match l with [] => None | x :: l => Some (x, l) end.
Definition take_back {A} (l : list A) : option (A * list A) := match rev l with [] => None | x :: l => Some (x, rev l) end.
(** A history of calls to an iterator with two ends: the answer and the announced length at each step. *)
Fixpoint history {St A} (front back : St -> option (A * St)) (hint : St -> nat) (calls : list side) (s : St) : list (nat * option A) :=
  match calls with
  | [] => []
  | c :: calls =>
      match (match c with Front => front s | Back => back s end) with
      | Some (x, s') => (hint s, Some x) :: history front back hint calls s'
      | None => (hint s, None) :: history front back hint calls s
      end
  end.
(** The JSON value of an entry. *)
Definition ventry_json (e : ventry) : json :=
  match e with
  | VEVal (VLit LNull _) => JNull | VEVal (VLit (LBool b) _) => JBool b | VEVal (VLit (LNum n) _) => JNum n | VEVal (VLit (LStr s) _) => JStr s
  | VEVal (VLang s) => JStr (ls_data s) | VEVal (VJson j) => j
  | VEType (Some t) => JStr t | VEType None => JStr "@json" | VELang l => JStr l
  | VEDir Ltr => JStr "ltr" | VEDir Rtl => JStr "rtl"
  end.
Definition nentry_json (e : nentry) : json :=
  match e with
  | NEId i => JStr (id_str i) | NEType l => JArr (map (fun i => JStr (id_str i)) l)
  | NEGraph l => JArr (map iobj_json l) | NEIncluded l => JArr (map inode_json l)
  | NEReverse l => JObj (map (fun p => (id_str (fst p), JArr (map inode_json (snd p)))) l)
  | NEProp _ l => JArr (map iobj_json l)
  end.
Definition ientry_json (e : ientry) : json :=
  match e with IEIndex i => JStr i | IEObj (OEVal e) => ventry_json e | IEObj (OEList l) => JArr (map iobj_json l) | IEObj (OENode e) => nentry_json e end.
(** No two entries of the object have the same key, nor two reverse properties; no included nodes; the types are not an empty list. *)
Definition writable (x : iobj) : Prop :=
  NoDup (map ientry_key (entries_of_object x)) /\
  forall n, snd x = ONode n -> n_included n = None /\ n_types n <> Some [] /\
    forall rs, n_reverse n = Some rs -> NoDup (map (fun p => id_str (fst p)) rs).

(** ** Proof *)
Lemma NoDup_app_r {A} (a b : list A) : NoDup (a ++ b) -> NoDup b.
Proof. induction a as [|x a IH]; cbn; intros N; [exact N|]. inversion N; auto. Qed.
Lemma NoDup_app_both {A} (a b : list A) : NoDup (a ++ b) -> forall x, In x a -> In x b -> False.
Proof.
  induction a as [|y a IH]; cbn; intros N x I J; [contradiction|]. inversion N as [|? ? NI N']; subst.
  destruct I as [<-|I]; [apply NI, in_or_app; auto|exact (IH N' x I J)].
Qed.
Definition left_of (s : vstate) : list ventry := maybe VEVal (vs_value s) ++ maybe VEType (vs_type s) ++ maybe VELang (vs_lang s) ++ maybe VEDir (vs_dir s).
Lemma v_start_left v : left_of (v_start v) = entries_of_value v.
Proof. destruct v as [l [t|]|s|j]; reflexivity. Qed.
Lemma v_hint_left s : v_hint s = length (left_of s).
Proof. destruct s as [[v|] [t|] [l|] [d|]]; reflexivity. Qed.
Lemma v_next_left s : match v_next s with Some (e, s') => left_of s = e :: left_of s' | None => left_of s = [] end.
Proof. destruct s as [[v|] [t|] [l|] [d|]]; reflexivity. Qed.
Lemma v_back_left s : match v_back s with Some (e, s') => left_of s = left_of s' ++ [e] | None => left_of s = [] end.
Proof. destruct s as [[v|] [t|] [l|] [d|]]; reflexivity. Qed.
Lemma v_history calls : forall s, history v_next v_back v_hint calls s = history take_front take_back (@length ventry) calls (left_of s).
Proof.
  induction calls as [|[] calls IH]; intros s; cbn [history]; [reflexivity| |]; rewrite v_hint_left.
  - pose proof (v_next_left s) as E. destruct (v_next s) as [[e s']|]; rewrite E; cbn [take_front]; [rewrite IH|rewrite IH, E]; reflexivity.
  - pose proof (v_back_left s) as E. unfold take_back. destruct (v_back s) as [[e s']|]; rewrite E.
    + rewrite rev_app_distr. cbn [rev app]. rewrite rev_involutive, IH. reflexivity.
    + cbn [rev]. rewrite IH, E. reflexivity.
Qed.
Lemma n_next_left n : match n_next n with Some (e, n') => entries_of_node n = e :: entries_of_node n' | None => entries_of_node n = [] end.
Proof. destruct n as [[i|] [ts|] [g|] [inc|] [|p ps] [rs|]]; reflexivity. Qed.
Lemma n_hint_left n : n_hint n = length (entries_of_node n).
Proof.
  destruct n as [i ts g inc ps rs]. unfold entries_of_node, n_hint. cbn [n_id n_types n_graph n_included n_reverse n_props]. rewrite !app_length, map_length.
  destruct i, ts, g, inc, rs; cbn [maybe present List.length]; rewrite <- ?plus_n_Sm, <- ?plus_n_O; reflexivity.
Qed.
Definition o_left (s : ostate) : list oentry :=
  match s with OsVal s => map OEVal (left_of s) | OsList l => maybe OEList l | OsNode n => map OENode (entries_of_node n) end.
Definition i_left (s : istate) : list ientry := maybe IEIndex (fst s) ++ map IEObj (o_left (snd s)).
Lemma i_start_left x : i_left (i_start x) = entries_of_object x.
Proof. destruct x as [i [v|n|l]]; unfold i_left, i_start, entries_of_object; cbn; [rewrite v_start_left|..]; reflexivity. Qed.
Lemma i_hint_left s : i_hint s = length (i_left s).
Proof.
  destruct s as [i s]. unfold i_hint, i_left. cbn [fst snd]. rewrite app_length, map_length.
  assert (E : o_hint s = length (o_left s)) by (destruct s as [s|[l|]|n]; cbn; rewrite ?map_length; auto using v_hint_left, n_hint_left).
  rewrite E. destruct i; cbn; lia.
Qed.
Lemma i_next_left s : match i_next s with Some (e, s') => i_left s = e :: i_left s' | None => i_left s = [] end.
Proof.
  destruct s as [[i|] s]; [reflexivity|]. cbn [i_next]. unfold i_left. destruct s as [s|[l|]|n]; cbn [o_next]; try reflexivity.
  - pose proof (v_next_left s) as E. destruct (v_next s) as [[e s']|]; cbn; rewrite E; reflexivity.
  - pose proof (n_next_left n) as E. destruct (n_next n) as [[e n']|]; cbn; rewrite E; reflexivity.
Qed.
Lemma key_kw e k : ientry_kw e = Some k -> ientry_key e = kw_str k.
Proof. destruct e as [i|[[]|l|[]]]; cbn; intros E; try discriminate; injection E as <-; reflexivity. Qed.
Lemma has_key_iff n t : node_has_key n t = true <-> exists e, In e (entries_of_node n) /\
  match t with TmKw k => nentry_kw e = Some k | TmId p => exists l, e = NEProp p l | TmNull => False end.
Proof.
  destruct n as [i ts g inc ps rs]. unfold entries_of_node. cbn [n_id n_types n_graph n_included n_reverse n_props].
  assert (P : forall e, In e (map (fun p => NEProp (fst p) (snd p)) ps) <-> exists p l, e = NEProp p l /\ In (p, l) ps).
  { intros e. rewrite in_map_iff. split; [intros ([p l] & <- & I); eauto|intros (p & l & -> & I); exists (p, l); auto]. }
  destruct t as [|p|k].
  - split; [discriminate|intros (e & _ & [])].
  - cbn [node_has_key]. rewrite existsb_exists. split.
    + intros ([q l] & I & E). cbn in E. destruct (id_eqb_spec p q) as [<-|]; [|discriminate]. exists (NEProp p l).
      split; [|eauto]. rewrite !in_app_iff, P. do 5 right. eauto.
    + intros (e & I & l & ->). rewrite !in_app_iff, P in I. exists (p, l). cbn. destruct (id_eqb_spec p p); [|congruence]. split; [|reflexivity].
      destruct I as [I|[I|[I|[I|[I|(q & l' & E & I)]]]]]; try (destruct i, ts, g, inc, rs; cbn in I; intuition discriminate). injection E as -> ->. exact I.
  - split.
    + intros H. destruct k; cbn in H; try discriminate.
      * destruct g as [g|]; [|discriminate]. exists (NEGraph g). rewrite !in_app_iff. cbn. tauto.
      * destruct i as [i|]; [|discriminate]. exists (NEId i). rewrite !in_app_iff. cbn. tauto.
      * destruct inc as [l|]; [|discriminate]. exists (NEIncluded l). rewrite !in_app_iff. cbn. tauto.
      * destruct rs as [l|]; [|discriminate]. exists (NEReverse l). rewrite !in_app_iff. cbn. tauto.
      * destruct ts as [l|]; [|discriminate]. exists (NEType l). rewrite !in_app_iff. cbn. tauto.
    + intros (e & I & E). rewrite !in_app_iff, P in I.
      destruct I as [I|[I|[I|[I|[I|(q & l' & -> & I)]]]]]; [..|discriminate E].
      * destruct i as [i|]; [|destruct I]. destruct I as [<-|[]]. injection E as <-. reflexivity.
      * destruct ts as [ts|]; [|destruct I]. destruct I as [<-|[]]. injection E as <-. reflexivity.
      * destruct g as [g|]; [|destruct I]. destruct I as [<-|[]]. injection E as <-. reflexivity.
      * destruct inc as [inc|]; [|destruct I]. destruct I as [<-|[]]. injection E as <-. reflexivity.
      * destruct rs as [rs|]; [|destruct I]. destruct I as [<-|[]]. injection E as <-. reflexivity.
Qed.
Definition kv (e : ientry) : string * json := (ientry_key e, ientry_json e).
Lemma insert_perm k v m : ~ In k (keys m) -> Permutation (insert k v m) ((k, v) :: m).
Proof. intros H. rewrite (insert_app _ _ _ H). symmetry. apply Permutation_cons_append. Qed.
Lemma value_entries_json v : exists m, value_json v = JObj m /\ Permutation m (map (fun e => (ventry_key e, ventry_json e)) (entries_of_value v)).
Proof.
  destruct v as [l [t|]|[s [l|] [d|]]|j]; cbn; eexists; (split; [reflexivity|]).
  - destruct l; apply perm_swap.
  - destruct l; reflexivity.
  - destruct d; symmetry; apply (Permutation_cons_append [_; _]).
  - apply perm_swap.
  - destruct d; apply perm_swap.
  - reflexivity.
  - apply perm_swap.
Qed.

Lemma node_entries_json n : NoDup (map nentry_key (entries_of_node n)) -> n_included n = None -> n_types n <> Some [] ->
  (forall rs, n_reverse n = Some rs -> NoDup (map (fun p => id_str (fst p)) rs)) ->
  node_json n = JObj (map (fun e => (nentry_key e, nentry_json e)) (entries_of_node n)).
Proof.
  destruct n as [i ts g inc ps rs]. unfold entries_of_node. cbn [n_id n_types n_graph n_included n_reverse n_props]. intros N I T R. subst inc.
  cbn [node_json]. change (maybe NEIncluded None) with (@nil nentry) in *. cbn [app] in N |- *.
  set (h := maybe NEId i ++ maybe NEType ts ++ maybe NEGraph g ++ maybe NEReverse rs).
  assert (A : maybe NEId i ++ maybe NEType ts ++ maybe NEGraph g ++ maybe NEReverse rs ++ map (fun p => NEProp (fst p) (snd p)) ps
    = h ++ map (fun p => NEProp (fst p) (snd p)) ps) by (unfold h; rewrite <- !app_assoc; reflexivity).
  rewrite A in N |- *. rewrite map_app, map_map in N. cbn [nentry_key] in N.
  set (m := match rs with Some _ => _ | None => _ end).
  assert (M : m = map (fun e => (nentry_key e, nentry_json e)) h).
  { unfold m, h. clear - T R. destruct rs as [rs|].
    - rewrite (fold_insert (fun p => id_str (fst p)) (fun p => JArr (map (fun x => with_index (fst x) (node_json (snd x))) (snd p))) rs []) by
        (try apply R, eq_refl; intros ? ? []).
      destruct i as [i|], ts as [[|t ts]|], g as [g|]; try (exfalso; apply T; reflexivity); reflexivity.
    - destruct i as [i|], ts as [[|t ts]|], g as [g|]; try (exfalso; apply T; reflexivity); reflexivity. }
  clearbody m. subst m.
  rewrite (fold_insert (fun p => id_str (fst p)) (fun p => JArr (map (fun x => with_index (fst x) (obj_json (snd x))) (snd p))) ps).
  - rewrite map_app, map_map. reflexivity.
  - exact (NoDup_app_r _ _ N).
  - intros p Ip J. unfold keys in J. rewrite map_map in J. cbn [fst] in J. apply (NoDup_app_both _ _ N _ J). apply (in_map (fun p => id_str (fst p))), Ip.
Qed.
Lemma object_entries_json x : writable x -> exists m, iobj_json x = JObj m /\ Permutation m (map kv (entries_of_object x)).
Proof.
  destruct x as [i o]. unfold writable, entries_of_object, iobj_json, kv. cbn [fst snd]. intros (N & H). rewrite map_app in N |- *.
  assert (B : exists m, obj_json o = JObj m /\ Permutation m (map (fun e => (ientry_key e, ientry_json e)) (map IEObj (match o with
                                      | OVal v => map OEVal (entries_of_value v) | OList l => [OEList l] | ONode n => map OENode (entries_of_node n) end)))).
  { destruct o as [v|n|l].
    - destruct (value_entries_json v) as (m & E & P). exists m. split; [exact E|]. rewrite !map_map. exact P.
    - destruct (H n eq_refl) as (H1 & H2 & H3). eexists. split; [apply node_entries_json; auto|rewrite !map_map; reflexivity].
      apply NoDup_app_r in N. rewrite !map_map in N. exact N.
    - eexists. split; reflexivity. }
  destruct B as (m & E & P). rewrite E. destruct i as [i|]; cbn [with_index maybe map app]; [|exists m; auto].
  eexists. split; [reflexivity|]. rewrite insert_perm; [constructor; exact P|].
  intros J. apply (Permutation_in _ (Permutation_map fst P)) in J. rewrite map_map in J. cbn [fst] in J.
  cbn [maybe map app ientry_key] in N. inversion N as [|? ? NI]; subst. apply NI. exact J.
Qed.

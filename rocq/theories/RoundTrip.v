(** Expansion of compacted documents. *)
From Verif Require Import Prelude Json Str Keyword Enums LangTag LangString Container Stack ContextSyntax Ctx Inverse Process
  ProcessRel Cycles IriSpec Object ObjectJson ObjectEq ObjectJsonProofs AddValue CompactIri CompactIriProofs CompactIriRead CompactIriTerm
  Expand ExpandValue Compact CompactValue CompactProofs CompactKept TripLists.

(** ** Specification *)

(** *** Contexts *)

(** Terms without local context, nest value, graph container, index property, or type [@json],
    that are not reverse properties. *)
Record simple_def (d : ndef) : Prop := {
  sd_context : nd_context d = None;
  sd_nest : nd_nest d = None;
  sd_reverse : nd_reverse d = false;
  sd_container : c_contains (nd_container d) CKGraph = false;
  sd_index : nd_index d = None;
  sd_json : nd_typ d <> Some TyJson;
  sd_none : nd_typ d = Some TyNone -> nd_language d = None /\ nd_direction d = None
}.
(** All the terms are simple, no keyword is a term or disturbed, and the aliases of [@graph] and
    [@included] say nothing else. *)
Record simple_context (c : actx) : Prop := {
  sc_once : NoDup (map fst (ac_defs c));
  sc_prev : ac_prev c = None;
  sc_defs : forall k d, assoc k (ac_defs c) = Some d -> simple_def d;
  sc_free : forall kw, assoc (kw_str kw) (ac_defs c) = None;
  sc_keywords : forall kw, plain_keyword c kw;
  sc_alias : forall k d kw, assoc k (ac_defs c) = Some d -> nd_value d = Some (TmKw kw) -> kw = KGraph \/ kw = KIncluded ->
    nd_container d = CNone /\ nd_typ d = None /\ nd_language d = None /\ nd_direction d = None
}.

(** *** Names *)

(** A blank node identifier that no term, prefix or vocabulary mapping is about. *)
Record plain_blank (io : iops) (c : actx) (b : string) : Prop := {
  pb_ok : blank_ok io b = true;
  pb_scheme : has_scheme b;
  pb_defs : assoc b (ac_defs c) = None;
  pb_terms : forall k d, assoc k (ac_defs c) = Some d -> nd_value d <> Some (TmId (IBlank b));
  pb_vocab : forall m x, ac_vocab c = Some m -> b = term_str m +++ x -> x = "" \/ x = b;
  pb_prefix : forall p d t x, assoc p (ac_defs c) = Some d -> nd_prefix d = true -> nd_value d = Some t -> b = term_str t +++ x -> x = ""
}.
(** Types and properties. *)
Definition kept_name (io : iops) (c : actx) (i : id) : Prop :=
  match i with
  | IIri s => iri_ok io s = true /\ undisturbed io c s
  | IBlank b => plain_blank io c b
  | IInvalid _ => False
  end.
Definition kept_property (io : iops) (c : actx) (p : id) : Prop := kept_name io c p /\ assoc (id_str p) (ac_defs c) = None.
(** Identifiers of nodes. *)
Definition kept_id (io : iops) (rel : string -> string -> string) (c : actx) (i : id) : Prop :=
  match i with
  | IIri s => iri_ok io s = true /\ undisturbed_id io rel c s /\
      ((exists k d, assoc k (ac_defs c) = Some d /\ nd_typ d = Some TyVocab) -> undisturbed io c s)
  | IBlank b => plain_blank io c b
  | IInvalid _ => False
  end.

(** *** Objects *)

(** Values: not null, with a datatype that is read back; tagged strings have a language other
    than [@none], or a direction, and the context has no default for a missing one. *)
Record kept_value (io : iops) (c : actx) (v : value) : Prop := {
  kv_null : forall t, v <> VLit LNull t;
  kv_type : forall l s, v = VLit l (Some s) -> iri_ok io s = true /\ undisturbed io c s;
  kv_tagged : forall s, v = VLang s -> tagged s /\ ls_language s <> Some "@none" /\
    (ls_language s = None -> ac_lang c = None) /\ (ls_direction s = None -> ac_dir c = None)
}.
(** Nodes with something else than an identifier. *)
Definition full_node (x : iobj) : Prop := exists n, snd x = ONode n /\ n_empty n = false.
Section Objects.
Variables (io : iops) (rel : string -> string -> string) (m : mode) (c : actx).
(** Keys of maps that are read as something else than [@none]. *)
Definition map_key (s : string) : Prop :=
  exists t, expand_iri_simple io c (NSome (xp_of_str s)) false (Some AKeep) = Ok (Some t) /\ t <> TmNull /\ t <> TmKw KNone.
Definition map_id (i : id) : Prop :=
  forall s, expand_iri_simple io c (NSome (xp_of_str s)) true None = Ok (Some (TmId i)) -> map_key s.
(** Values that a language map of the term [d] can say: strings, with the direction of the term,
    whose language is not an alias of [@none]. *)
Definition map_value (d : ndef) (v : value) : Prop :=
  match v with
  | VLang s => ((forall r, nd_direction d <> Some (NSome r)) -> ls_direction s = dir_for c (Some d)) /\
      (forall l, ls_language s = Some l -> expand_iri_simple io c (NSome (xp_of_str l)) false (Some AKeep) <> Ok (Some (TmKw KNone)))
  | VLit l None => (exists s, l = LStr s) /\ ((forall r, nd_direction d <> Some (NSome r)) -> dir_for c (Some d) = None)
  | _ => True
  end.
(** What the terms for the property [p] ask of its values [l]: no list or graph object with
    terms for index maps; a single list with terms for lists. *)
Record mapped_well (p : id) (l : list iobj) : Prop := {
  mw_index : forall k d, assoc k (ac_defs c) = Some d -> nd_value d = Some (TmId p) -> c_contains (nd_container d) CKIndex = true ->
    Forall (fun x => is_list (snd x) = false /\ ~ a_graph (snd x) /\ forall i, fst x = Some i -> map_key i) l;
  mw_id : forall k d, assoc k (ac_defs c) = Some d -> nd_value d = Some (TmId p) -> c_contains (nd_container d) CKId = true ->
    Forall (fun x => forall n i, snd x = ONode n -> n_id n = Some i -> map_id i) l;
  mw_language : forall k d, assoc k (ac_defs c) = Some d -> nd_value d = Some (TmId p) -> c_contains (nd_container d) CKLanguage = true ->
    Forall (fun x => forall v, snd x = OVal v -> map_value d v) l;
  mw_list : forall k d, assoc k (ac_defs c) = Some d -> nd_value d = Some (TmId p) -> c_contains (nd_container d) CKList = true ->
    length (filter (fun x => is_list (snd x)) l) <= 1
}.
(** No term for the property [p] has an index container. *)
Definition unindexed (p : id) : Prop :=
  forall k d, assoc k (ac_defs c) = Some d -> nd_value d = Some (TmId p) -> c_contains (nd_container d) CKIndex = false.
(** Kept objects: lists are not nested; graphs contain nodes that have something else than an
    identifier; a node that has nothing else has no index, unless all the terms of type [@id] or
    [@vocab] are for index maps; there is no empty list of types and no empty map of reverse
    properties. *)
Inductive kept : iobj -> Prop :=
| KtVal ix v : kept_value io c v -> kept (ix, OVal v)
| KtNode ix n : kept_node (ix, n) -> kept (ix, ONode n)
| KtList ix l : Forall (fun x => kept x /\ is_list (snd x) = false) l -> kept (ix, OList l)
with kept_node : inode -> Prop :=
| KtMk ix i ts g inc ps rs :
    (forall x, i = Some x -> kept_id io rel c x) ->
    ts <> Some [] -> Forall (kept_name io c) (opt_list ts) ->
    Forall (fun x => kept x /\ full_node x) (opt_list g) ->
    (inc <> None -> m = JsonLd11) -> Forall kept_node (opt_list inc) ->
    Forall (fun p => kept_property io c (fst p) /\ mapped_well (fst p) (snd p) /\ Forall kept (snd p)) ps ->
    rs <> Some [] -> Forall (fun p => kept_property io c (fst p) /\ unindexed (fst p) /\ Forall kept_node (snd p)) (opt_list rs) ->
    (i <> None -> n_empty (MkNode i ts g inc ps rs) = true -> ix = None \/
      forall k d, assoc k (ac_defs c) = Some d -> nd_typ d = Some TyId \/ nd_typ d = Some TyVocab -> c_contains (nd_container d) CKIndex = true) ->
    kept_node (ix, MkNode i ts g inc ps rs).
End Objects.

(** ** Proof *)

(** From some fuel on. *)
Definition ev (P : nat -> Prop) : Prop := exists N, forall n, N <= n -> P n.
Lemma ev_always (P : nat -> Prop) : (forall n, P n) -> ev P.
Proof. intros H. exists 0. auto. Qed.
Lemma ev_and P Q : ev P -> ev Q -> ev (fun n => P n /\ Q n).
Proof. intros [N H] [M G]. exists (N + M). intros n L. split; [apply H|apply G]; lia. Qed.
Lemma ev_impl (P Q : nat -> Prop) : (forall n, P n -> Q n) -> ev P -> ev Q.
Proof. intros H [N G]. exists N. auto. Qed.
Lemma ev_succ (P Q : nat -> Prop) : (forall n, P n -> Q (S n)) -> ev P -> ev Q.
Proof. intros H [N G]. exists (S N). intros [|n] L; [lia|]. apply H, G. lia. Qed.
Lemma ev_forall2 {A B} (R : nat -> A -> B -> Prop) l l' : Forall2 (fun x y => ev (fun n => R n x y)) l l' -> ev (fun n => Forall2 (R n) l l').
Proof.
  induction 1 as [|x y l l' H F IH]; [apply ev_always; constructor|]. eapply ev_impl; [|exact (ev_and _ _ H IH)]. cbn. intros n [X Y]. constructor; assumption.
Qed.
Lemma fold_r_app {A B E} (f : A -> B -> result A E) l l' : forall a, fold_r f a (l ++ l') = do b <- fold_r f a l ; fold_r f b l'.
Proof. induction l as [|x l IH]; intros a; [reflexivity|]. cbn [app fold_r]. destruct (f a x); [apply IH|reflexivity]. Qed.
Lemma flat_r_ok {A B E} (f : A -> result (list B) E) l l' : Forall2 (fun x y => f x = Ok y) l l' -> flat_r f l = Ok (concat l').
Proof. induction 1 as [|x y l l' H F IH]; [reflexivity|]. cbn [flat_r concat]. rewrite H. cbn [bind]. rewrite IH. reflexivity. Qed.
Lemma ev_forall {A} (R : nat -> A -> Prop) l : Forall (fun x => ev (fun n => R n x)) l -> ev (fun n => Forall (R n) l).
Proof.
  induction 1 as [|x l H F IH]; [apply ev_always; constructor|]. eapply ev_impl; [|exact (ev_and _ _ H IH)]. cbn. intros n [X Y]. constructor; assumption.
Qed.

Section Trip.
Variables (io : iops) (ld : loader) (fin rnd : list word -> N) (pf : nat) (o : xopts) (base : option string).
Variables (rel : string -> string -> string) (co : copts) (c : actx).
Hypothesis LW : iri_laws io.
Hypothesis VK : xo_vocab o = AKeep.
Hypothesis SC : simple_context c.
Local Arguments expand_iri_simple : simpl never.
Notation read s dr vo := (expand_iri_simple io c (NSome (xp_of_str s)) dr vo).
Notation HN := (sc_once _ SC).
Notation kept := (kept io rel (xo_mode o) c).
Notation kept_node := (kept_node io rel (xo_mode o) c).

(** *** Names *)
Lemma read_blank b m value vocab rev k : plain_blank io c b -> compact_iri_full rel c m (TmId (IBlank b)) value vocab rev = Ok (Some k) -> k = b.
Proof.
  intros P H. unfold compact_iri_full in H. apply body_selected in H. destruct H as (_ & [(_ & cs & q & H)|[(_ & H)|(_ & H)]]).
  - apply select_spec in H. destruct H as (cs1 & cn & cs2 & qs1 & q' & qs2 & _ & _ & _ & _ & (d & H1 & H2 & _) & _).
    destruct (pb_terms _ _ _ P _ _ (assoc_In_nodup _ _ _ HN H1) H2).
  - unfold by_vocab in H. destruct (ac_vocab c) as [v|] eqn:V; [|discriminate].
    destruct (strip_prefix (term_str v) (term_str (TmId (IBlank b)))) as [x|] eqn:E; [|discriminate].
    apply strip_prefix_spec in E. cbn [term_str id_str] in E. destruct (pb_vocab _ _ _ P _ _ V E) as [X|X]; subst x; [discriminate H|].
    destruct (negb _ && negb _); [|discriminate]. congruence.
  - apply tail_cases in H. destruct H as [[H _]|[_ H]]; [|cbn in H; exact H].
    destruct H as (p & d & t & x & I & Q & V & E & N & -> & F). apply (assoc_In_nodup _ _ _ HN) in I. cbn [term_str id_str] in E.
    destruct N. exact (pb_prefix _ _ _ P _ _ _ _ I Q V E).
Qed.
Lemma expand_blank b dr vo : plain_blank io c b -> read b dr vo = Ok (Some (TmId (IBlank b))).
Proof.
  intros P. destruct (pb_scheme _ _ _ P) as (p & x & E & N & NC). assert (K : is_keyword_like b = false) by (rewrite E; apply colon_not_keyword).
  apply expansion_expand; [exact K|]. apply ex_blank; [exact K| |exact (pb_scheme _ _ _ P)|exact (pb_ok _ _ _ P)].
  intros t B. pose proof (pb_defs _ _ _ P) as A. inversion B; congruence.
Qed.
Lemma name_read i m v rev k dr : kept_name io c i -> compact_iri_full rel c m (TmId i) v true rev = Ok (Some k) ->
  read k dr (Some AKeep) = Ok (Some (TmId i)).
Proof.
  intros N H. destruct i as [s|b|s]; cbn in N; [destruct N as [N U]| |contradiction].
  - eapply read_vocab; eassumption || exact HN.
  - rewrite (read_blank _ _ _ _ _ _ N H). apply expand_blank, N.
Qed.
Lemma id_read i m v rev k : kept_id io rel c i -> compact_iri_full rel c m (TmId i) v false rev = Ok (Some k) ->
  read k true None = Ok (Some (TmId i)).
Proof.
  intros N H. destruct i as [s|b|s]; cbn in N; [destruct N as (N & U & _)| |contradiction].
  - eapply read_docrel; eassumption || exact HN.
  - rewrite (read_blank _ _ _ _ _ _ N H). apply expand_blank, N.
Qed.
Lemma id_name i : kept_id io rel c i -> (exists k d, assoc k (ac_defs c) = Some d /\ nd_typ d = Some TyVocab) -> kept_name io c i.
Proof. destruct i; cbn; [|auto|contradiction]. intros (A & B & C) E. auto. Qed.
Lemma name_colon i : kept_name io c i -> id_has_colon i = true.
Proof.
  destruct i as [s|b|s]; cbn [kept_name]; [|intros P|contradiction].
  - intros [A _]. destruct (il_scheme io LW s A) as (p & x & E & _). unfold id_has_colon. cbn [id_str]. rewrite E, contains_char_app. apply orb_true_r.
  - destruct (pb_scheme _ _ _ P) as (p & x & E & _). unfold id_has_colon. cbn [id_str]. rewrite E, contains_char_app. apply orb_true_r.
Qed.
Lemma name_policy i e : kept_name io c i -> invalid_policy o i e = Ok true.
Proof. destruct i; cbn; tauto || reflexivity. Qed.

(** *** Keys *)
Definition rd (k : string) (t : term) : Prop := (forall dr, read k dr (Some AKeep) = Ok (Some t)) /\ k <> "@context".
Lemma rd_fun k t t' : rd k t -> rd k t' -> t = t'.
Proof. intros [H _] [H' _]. specialize (H true). specialize (H' true). congruence. Qed.
Lemma rd_key k t : rd k t -> xkey io o c k = Ok (Some t).
Proof. intros [H _]. unfold xkey, xiri. rewrite VK, H. reflexivity. Qed.
Lemma rd_kw k kw : reads io c k kw -> rd k (TmKw kw).
Proof. exact (fun H => H). Qed.
Lemma key_reads kw k : kw <> KContext -> kkey rel co c kw = Ok k -> rd k (TmKw kw).
Proof. intros N H. apply rd_kw. eapply (kkey_reads io rel co c HN); [apply (sc_keywords _ SC)|exact N|exact H]. Qed.
Lemma kw_rd kw : kw <> KContext -> rd (kw_str kw) (TmKw kw).
Proof. intros N. split; [intros dr; apply read_kw_str|]. destruct kw; (discriminate || congruence). Qed.
Lemma name_rd i k : (forall dr, read k dr (Some AKeep) = Ok (Some (TmId i))) -> rd k (TmId i).
Proof. intros H. split; [exact H|]. intros ->. specialize (H true). change "@context" with (kw_str KContext) in H. rewrite read_kw_str in H. discriminate. Qed.
Lemma kiri_with_full t x r k : kiri_with rel co c t x r = Ok k -> compact_iri_full rel c (co_mode co) t (Some x) true r = Ok k.
Proof. unfold kiri_with. destruct (compact_iri_full _ _ _ _ _ _ _) as [y|[]]; congruence. Qed.
Lemma with_rd i x r k : kept_name io c i -> kiri_with rel co c (TmId i) x r = Ok (Some k) -> rd k (TmId i).
Proof. intros N H. apply kiri_with_full in H. apply name_rd. intros dr. eapply name_read; eassumption. Qed.
Lemma kiri_full t v k : kiri rel co c t v = Ok k -> compact_iri_full rel c (co_mode co) t None v false = Ok k.
Proof. intros H. apply kiri_ok in H. rewrite <- compact_is_full. exact H. Qed.

(** Keywords with values. *)
Lemma keyword_with kw x r k : kw <> KContext -> kiri_with rel co c (TmKw kw) x r = Ok (Some k) -> rd k (TmKw kw).
Proof.
  intros NC H. apply kiri_with_full in H. pose proof (sc_keywords _ SC kw) as P.
  unfold compact_iri_full in H. apply body_selected in H. destruct H as (_ & [(_ & cs & q & H)|[(_ & H)|(_ & H)]]).
  - apply select_spec in H. destruct H as (cs1 & cn & cs2 & qs1 & q' & qs2 & _ & _ & _ & _ & (d & H1 & H2 & _) & _).
    pose proof (assoc_In_nodup _ _ _ HN H1) as A. pose proof (pk_terms _ _ P _ _ A H2) as K. split.
    + intros dr. apply expansion_expand; [exact K|]. apply ex_term; [exact K|]. eapply bt_term; [discriminate|exact A|exact H2].
    + intros ->. discriminate K.
  - unfold by_vocab in H. destruct (ac_vocab c) as [v|] eqn:V; [|discriminate].
    destruct (strip_prefix (term_str v) (term_str (TmKw kw))) as [y|] eqn:E; [|discriminate].
    apply strip_prefix_spec in E. cbn [term_str] in E. destruct (pk_vocab _ _ P _ _ V E) as [X|X]; subst y; [discriminate H|].
    destruct (negb _ && negb _); [|discriminate]. injection H as <-. apply kw_rd, NC.
  - apply tail_cases in H. destruct H as [[H _]|[_ H]].
    + destruct H as (p & d & t & y & I & Q & V & E & N & -> & F). apply (assoc_In_nodup _ _ _ HN) in I. cbn [term_str] in E.
      destruct N. exact (pk_prefix _ _ P _ _ _ _ I Q V E).
    + cbn in H. subst k. apply kw_rd, NC.
Qed.
(** [@id], without the vocabulary. *)
Lemma keyword_plain kw k : kw <> KContext -> kiri rel co c (TmKw kw) false = Ok (Some k) -> rd k (TmKw kw).
Proof.
  intros NC H. apply kiri_full in H. pose proof (sc_keywords _ SC kw) as P.
  unfold compact_iri_full in H. apply body_selected in H. destruct H as (_ & [(H & _)|[(H & _)|(_ & H)]]); try discriminate H.
  apply tail_cases in H. destruct H as [[H _]|[_ H]].
  - destruct H as (p & d & t & y & I & Q & V & E & N & -> & F). apply (assoc_In_nodup _ _ _ HN) in I. cbn [term_str] in E.
    destruct N. exact (pk_prefix _ _ P _ _ _ _ I Q V E).
  - cbn in H. subst k. apply kw_rd, NC.
Qed.

(** The key of the items of a group does not depend on the item. *)
Lemma before_antisym a b : before a b -> before b a -> a = b.
Proof.
  unfold before. intros [H|(H & [H1|H1])] [G|(G & [G1|G1])]; try lia; auto.
  rewrite String.compare_antisym, H1 in G1. discriminate.
Qed.
Lemma group_key kw x y k k' : kw = KGraph \/ kw = KIncluded ->
  (exists n, snd x = ONode n) -> (exists n, snd y = ONode n) ->
  kiri_with rel co c (TmKw kw) x false = Ok (Some k) -> kiri_with rel co c (TmKw kw) y false = Ok (Some k') -> k = k'.
Proof.
  intros KW. 
  (* an alias is a candidate of the request for [@none] *)
  assert (CA : forall (x : iobj) k, (exists n, snd x = ONode n) -> kiri_with rel co c (TmKw kw) x false = Ok (Some k) ->
    (exists d, In (k, d) (ac_defs c) /\ nd_value d = Some (TmKw kw) /\ forall k' d', In (k', d') (ac_defs c) -> nd_value d' = Some (TmKw kw) -> before k k') \/
    (forall k' d', In (k', d') (ac_defs c) -> nd_value d' <> Some (TmKw kw)) /\ k = kw_str kw).
  { clear x y k k'. intros x k [n Hx] H. apply kiri_with_full in H. unfold compact_iri_full, compact_body in H.
    match type of H with bind ?r _ = _ => destruct r as [[k0|]|] eqn:E end; cbn [bind] in H; try discriminate.
    - injection H as ->. left. destruct (get_by term_eqb (TmKw kw) (inverse_of c)) as [dd|] eqn:G; [|discriminate].
      match type of E with bind ?r _ = _ => destruct r as [s|] end; cbn [bind] in E; [|discriminate]. injection E as E.
      assert (S : select (inverse_of c) (TmKw kw) (containers c (co_mode co) (Some x) false) s = Some k) by (unfold select; rewrite G; exact E).
      apply select_spec in S. destruct S as (cs1 & cn & cs2 & qs1 & q & qs2 & _ & _ & _ & _ & (d & I & V & CN & W) & L).
      exists d. split; [exact I|]. split; [exact V|]. intros k' d' I' V'. apply L. exists d'. split; [exact I'|]. split; [exact V'|].
      destruct (sc_alias _ SC _ _ _ (assoc_In_nodup _ _ _ HN I) V KW) as (A1 & A2 & A3 & A4).
      destruct (sc_alias _ SC _ _ _ (assoc_In_nodup _ _ _ HN I') V' KW) as (B1 & B2 & B3 & B4).
      pose proof (sd_reverse _ (sc_defs _ SC _ _ (assoc_In_nodup _ _ _ HN I))) as A5.
      pose proof (sd_reverse _ (sc_defs _ SC _ _ (assoc_In_nodup _ _ _ HN I'))) as B5.
      split; [congruence|]. destruct q as [|[| |[]]|[|l]]; cbn [wants wants_type wants_lang] in *;
        rewrite ?A2, ?A3, ?A4, ?A5 in W; rewrite ?B2, ?B3, ?B4, ?B5; exact W.
    - right. assert (NO : forall k' d', In (k', d') (ac_defs c) -> nd_value d' <> Some (TmKw kw)).
      { intros k' d' I' V'. destruct (sc_alias _ SC _ _ _ (assoc_In_nodup _ _ _ HN I') V' KW) as (B1 & B2 & B3 & B4).
        pose proof (sd_reverse _ (sc_defs _ SC _ _ (assoc_In_nodup _ _ _ HN I'))) as B5.
        assert (EX : exists s, select (inverse_of c) (TmKw kw) (containers c (co_mode co) (Some x) false) s = None /\ In (RqType (TsType TyNone)) (requests s)).
        { destruct (get_by term_eqb (TmKw kw) (inverse_of c)) as [dd|] eqn:G.
          - match type of E with bind ?r _ = _ => destruct r as [s|] eqn:S end; cbn [bind] in E; [|discriminate]. exists s. split; [unfold select; rewrite G; congruence|].
            destruct x as [ix ox]. cbn [snd] in Hx. subst ox. unfold selection_of in S. cbn [prefer] in S.
            assert (TT : exists cs, (if is_graph n then
              ((if is_some ix then [CGraphIndex; CGraphIndexSet] else []) ++ (if is_some (n_id n) then [CGraphId; CGraphIdSet] else []) ++ [CGraph; CGraphSet; CSet]
               ++ (if is_some ix then [] else [CGraphIndex; CGraphIndexSet]) ++ (if is_some (n_id n) then [] else [CGraphId; CGraphIdSet])
               ++ [CIndex; CIndexSet], Some (TlvType (TsType TyId)), false)
              else ([CId; CIdSet; CType; CSetType; CSet], Some (TlvType (TsType TyId)), false)) = (cs, Some (TlvType (TsType TyId)), false)) by (destruct (is_graph n); eauto).
            destruct TT as [cs TT]. rewrite TT in S. cbn [fst snd o_id] in S. destruct (n_id n) as [i|]; cbn [bind] in S.
            + destruct (as_vocab rel c (co_mode co) i) as [b|]; cbn [bind] in S; [|discriminate]. injection S as <-. destruct b; cbn; tauto.
            + injection S as <-. cbn. tauto.
          - exists (SelType [TsType TyNone]). split; [unfold select; rewrite G; reflexivity|left; reflexivity]. }
        destruct EX as (s & S & IQ). pose proof (proj1 (select_none _ _ _ _) S) as SN. refine (SN CNone _ k' _ IQ _).
        - unfold containers. destruct (prefer c (Some x) false) as [[cs tt] simple]. destruct x as [ix ox]. rewrite !in_app_iff. cbn. tauto.
        - exists d'. split; [exact I'|]. split; [exact V'|]. split; [exact B1|]. cbn. auto. }
      split; [exact NO|].
      assert (T : (match by_vocab c (TmKw kw) with Some k => Ok (Some k) | None => compact_tail rel c (TmKw kw) (negb (is_some (Some x))) true end) = Ok (Some k)) by exact H. clear H E.
      pose proof (sc_keywords _ SC kw) as P. destruct (by_vocab c (TmKw kw)) as [z|] eqn:BV.
      + injection T as <-. unfold by_vocab in BV. destruct (ac_vocab c) as [v|] eqn:V; [|discriminate].
        destruct (strip_prefix (term_str v) (term_str (TmKw kw))) as [w|] eqn:E; [|discriminate].
        apply strip_prefix_spec in E. cbn [term_str] in E. destruct (pk_vocab _ _ P _ _ V E) as [X|X]; subst w; [discriminate BV|].
        destruct (negb _ && negb _); [|discriminate]. congruence.
      + apply tail_cases in T. destruct T as [[T _]|[_ T]]; [|exact T].
        destruct T as (p & d & t & w & I & Q & V & E & N & -> & F). apply (assoc_In_nodup _ _ _ HN) in I. cbn [term_str] in E.
        destruct N. exact (pk_prefix _ _ P _ _ _ _ I Q V E). }
  intros Hx Hy H H'. destruct (CA _ _ Hx H) as [(d & I & V & L)|[N ->]], (CA _ _ Hy H') as [(d' & I' & V' & L')|[N' ->]].
  - apply before_antisym; eauto.
  - destruct (N' _ _ I V).
  - destruct (N _ _ I' V').
  - reflexivity.
Qed.

(** *** Definitions of the context *)
Lemma prop_simple ap d : prop_def c ap = Some d -> simple_def d.
Proof. unfold prop_def. destruct ap as [k|]; [|discriminate]. destruct (streq k "@type"); [discriminate|]. apply (sc_defs _ SC). Qed.
Lemma no_graph ap : has_container (prop_def c ap) CKGraph = false.
Proof. unfold has_container. destruct (prop_def c ap) as [d|] eqn:D; [|reflexivity]. exact (sd_container _ (prop_simple _ _ D)). Qed.
Lemma container_key key ck : key <> "@type" -> c_contains (container_of c key) ck = has_container (prop_def c (Some key)) ck.
Proof. intros N. unfold container_of, prop_def, has_container. destruct (streq_spec key "@type"); [contradiction|]. destruct (get_normal c key); [reflexivity|]. destruct ck; reflexivity. Qed.
Lemma no_graph_key key : c_contains (container_of c key) CKGraph = false.
Proof.
  destruct (streq_spec key "@type") as [->|N]; [unfold container_of; rewrite streq_refl; destruct (ac_type c); reflexivity|]. rewrite container_key by exact N. apply no_graph.
Qed.
Lemma kw_undefined kw : prop_def c (Some (kw_str kw)) = None.
Proof. unfold prop_def, get_normal. destruct (streq _ _); [reflexivity|]. apply (sc_free _ SC). Qed.
Lemma no_nest key : match prop_def c (Some key) with Some d => nd_nest d | None => None end = None.
Proof. destruct (prop_def c (Some key)) as [d|] eqn:D; [|reflexivity]. exact (sd_nest _ (prop_simple _ _ D)). Qed.
Lemma no_index_key key : match prop_def c (Some key) with Some d => nd_index d | None => None end = None.
Proof. destruct (prop_def c (Some key)) as [d|] eqn:D; [|reflexivity]. exact (sd_index _ (prop_simple _ _ D)). Qed.
(** Keys whose values are neither in a map nor a list. *)
Definition mapped (key : string) : bool :=
  c_contains (container_of c key) CKLanguage || c_contains (container_of c key) CKIndex || c_contains (container_of c key) CKId || c_contains (container_of c key) CKType.
Definition flatb (key : string) : bool := negb (mapped key) && negb (c_contains (container_of c key) CKList).
Lemma flatb_key key : flatb key = true -> flat_key c key.
Proof.
  unfold flatb, mapped. intros F. apply andb_true_iff in F. destruct F as [F G]. apply negb_true_iff in F, G. apply orb_false_iff in F. destruct F as [F F4].
  apply orb_false_iff in F. destruct F as [F F3]. apply orb_false_iff in F. destruct F as [F1 F2].
  split; [apply no_nest|]. intros ck [->|[->|[->|[->| ->]]]]; assumption.
Qed.
(** The index that is kept in the compacted object. *)
Definition lowered (ap : option string) (ix : option string) : option string := if c_contains (container_ap c ap) CKIndex then None else ix.
Lemma lowered_flat key ix : flatb key = true -> lowered (Some key) ix = ix.
Proof. intros F. unfold lowered. cbn [container_ap]. rewrite (fk_container _ _ (flatb_key _ F) CKIndex) by tauto. reflexivity. Qed.
Lemma no_context_of ap : match prop_def c ap with Some d => nd_context d | None => None end = None.
Proof. destruct (prop_def c ap) as [d|] eqn:D; [|reflexivity]. apply (sd_context _ (prop_simple _ _ D)). Qed.
Lemma scoped_same ap : scoped io ld pf co c c ap = Ok c.
Proof. unfold scoped. pose proof (no_context_of ap) as H. destruct (prop_def c ap) as [d|]; [rewrite H|]; reflexivity. Qed.
Lemma read_ok s dr : exists t, read s dr (Some AKeep) = Ok t.
Proof.
  unfold expand_iri_simple, expand_absolute, expand_tail, expand_absolute. unfold xp_of_str. destruct (kw_of_str s); [eauto|].
  destruct (is_keyword_like s); [eauto|]. destruct (expand_defined c s (Some AKeep)); [eauto|].
  repeat match goal with |- exists t, (if ?b then _ else _) = _ => destruct b | |- exists t, (match ?b with _ => _ end) = _ => destruct b end; eauto.
Qed.

(** *** Entries *)
Definition unread (es : list xentry) : jobject := map (fun e => (fst (fst e), snd e)) es.
Definition good (e : xentry) : Prop := rd (fst (fst e)) (snd (fst e)).
Lemma unread_app a b : unread (a ++ b) = unread a ++ unread b.
Proof. apply map_app. Qed.
Lemma good_keys es k : Forall good es -> In k (keys (unread es)) -> exists e, In e es /\ rd k (snd (fst e)).
Proof.
  intros G I. unfold keys, unread in I. rewrite map_map in I. apply in_map_iff in I. destruct I as (e & <- & I). exists e. split; [exact I|]. exact (proj1 (Forall_forall _ _) G _ I).
Qed.
Lemma entries_good es : Forall good es -> expand_entries io o c (unread es) = Ok es.
Proof.
  unfold expand_entries. induction 1 as [|[[k t] v] es G F IH]; [reflexivity|]. cbn [unread map flat_r fst snd]. rewrite (rd_key k t G). cbn [bind].
  fold (unread es). rewrite IH. reflexivity.
Qed.
Lemma preliminary_good es : Forall good es -> exists r, preliminary io o c (unread es) = Ok r.
Proof.
  unfold preliminary. generalize (false, false) as s. intros s G. revert s. induction G as [|[[k t] v] es G F IH]; intros s; [cbn; eauto|].
  cbn [unread map fold_r fst snd]. rewrite (rd_key k t G). cbn [bind]. apply IH.
Qed.
Lemma context_good es ap fm : Forall good es -> element_context io ld pf o base c ap (unread es) fm = Ok c.
Proof.
  intros G. unfold element_context. destruct (preliminary_good _ G) as [[a b] ->]. cbn [bind]. rewrite (sc_prev _ SC).
  pose proof (no_context_of ap) as H. assert (E : get_unique "@context" (unread es) = Ok None).
  { assert (N : get_all "@context" (unread es) = []).
    { apply get_all_nil. intros I. destruct (good_keys _ _ G I) as (e & _ & R). apply R. reflexivity. }
    unfold get_unique. rewrite N. reflexivity. }
  rewrite E. destruct (prop_def c ap) as [d|]; [rewrite H|]; reflexivity.
Qed.
Lemma types_good es : Forall good es -> exists ts, type_entries io o c (unread es) = Ok ts.
Proof.
  intros G. unfold type_entries.
  assert (E : exists l, flat_r (fun e : string * json => do t <- xkey io o c (fst e) ; Ok (match t with Some (TmKw KType) => [e] | _ => [] end)) (unread es) = Ok l).
  { induction G as [|[[k t] v] es G F [l IH]]; [cbn; eauto|]. cbn [unread map flat_r fst snd]. rewrite (rd_key k t G). cbn [bind]. fold (unread es). rewrite IH. cbn [bind]. eauto. }
  destruct E as [l ->]. cbn [bind]. eauto.
Qed.
Lemma fold_same {A B E} (f : A -> B -> result A E) a l : (forall x, f a x = Ok a) -> fold_r f a l = Ok a.
Proof. intros H. induction l as [|x l IH]; [reflexivity|]. cbn [fold_r]. rewrite H. exact IH. Qed.
Lemma scoped_good ts : type_scoped io ld pf o c ts = Ok c.
Proof.
  unfold type_scoped. apply fold_same. intros e. apply fold_same. intros t. pose proof (no_context_of (Some t)) as H.
  destruct (prop_def c (Some t)) as [d|]; [rewrite H|]; reflexivity.
Qed.
Lemma input_good ts : exists it, input_type io o c ts = Ok it.
Proof.
  unfold input_type. destruct ts as [|[k v] ts]; [eauto|]. destruct (List.rev (force_array v)) as [|[| | |s| |] ?]; eauto.
  unfold xkey, xiri. rewrite VK. destruct (read_ok s false) as [t H]. rewrite H. cbn. eauto.
Qed.
Notation XE := (expand_element io ld fin rnd pf o base).
Definition expands (ap : option string) (j : json) (x : iobj) : Prop := ev (fun n => forall fm, XE n c ap j fm = Ok (XObj x)).
Lemma expands_some ap j x : expands ap j x -> is_null j = false.
Proof.
  intros [N H]. specialize (H (S N) (le_S _ _ (le_n _)) false). cbn [expand_element element_body] in H. destruct j; try reflexivity. discriminate H.
Qed.
Definition unlist (ap : option string) : Prop := has_container (prop_def c ap) CKList = false.
Lemma expands_single ap j x : unlist ap -> expands ap j x -> is_array j = false.
Proof.
  intros L [N H]. specialize (H (S N) (le_S _ _ (le_n _)) false). cbn [expand_element element_body] in H. destruct j; try reflexivity.
  cbn [element_body] in H. rewrite L in H. match type of H with bind ?r _ = _ => destruct r end; discriminate H.
Qed.
Lemma unlist_kw kw : unlist (Some (kw_str kw)).
Proof. unfold unlist. rewrite kw_undefined. reflexivity. Qed.
(** A value that holds several items. *)
Definition expand_all (ap : option string) (v : json) (xs : list iobj) : Prop :=
  ev (fun n => forall fm, exists x, XE n c ap v fm = Ok x /\ items x = xs /\ x <> XNull).
Lemma expand_all_items ap v xs : unlist ap -> Forall2 (expands ap) (force_array v) xs -> expand_all ap v xs.
Proof.
  intros UL F. assert (A : (exists l, v = JArr l) \/ force_array v = [v]) by (destruct v; cbn; eauto). destruct A as [[l ->]|A].
  - cbn [force_array] in F. apply ev_forall2 in F. revert F. apply ev_succ. intros n F fm. cbn [expand_element element_body].
    assert (E : flat_r (fun item => do x <- XE n c ap item fm ; Ok (items x)) l = Ok xs).
    { induction F as [|j x l xs H F IH]; [reflexivity|]. cbn [flat_r]. rewrite H. cbn [bind items]. rewrite IH. reflexivity. }
    rewrite E. cbn [bind]. rewrite UL. eexists. split; [reflexivity|]. split; [reflexivity|discriminate].
  - rewrite A in F. inversion F as [|? x ? ? H F']; subst. inversion F'; subst. revert H. apply ev_impl. intros n H fm. rewrite H. eexists. split; [reflexivity|]. split; [reflexivity|discriminate].
Qed.

(** *** Nodes *)
Definition start : nstate := ((None, node_new None), false).
Definition steps (ap : option string) (s : nstate) (es : list xentry) (s' : nstate) : Prop :=
  ev (fun n => forall self, fold_r (node_entry io ld fin rnd pf o (XE n) self ap c c) s es = Ok s').
Lemma steps_nil ap s : steps ap s [] s.
Proof. apply ev_always. intros n self. reflexivity. Qed.
Lemma steps_app ap s es s' es' s'' : steps ap s es s' -> steps ap s' es' s'' -> steps ap s (es ++ es') s''.
Proof. intros H H'. eapply ev_impl; [|exact (ev_and _ _ H H')]. intros n [A B] self. rewrite fold_r_app, A. apply B. Qed.
Lemma steps_one ap s e s' : ev (fun n => forall self, node_entry io ld fin rnd pf o (XE n) self ap c c s e = Ok s') -> steps ap s [e] s'.
Proof. apply ev_impl. intros n H self. cbn [fold_r]. rewrite H. reflexivity. Qed.
Lemma last_none k es : Forall (fun e => snd (fst e) <> TmKw k) es -> last_entry k es = None.
Proof.
  unfold last_entry. generalize (None : option json) as a. intros a F. revert a. induction F as [|[[x t] v] es H F IH]; intros a; [reflexivity|]. cbn [fold_left fst snd] in *.
  destruct t as [| |kw]; try apply IH. destruct (keyword_eqb_spec kw k) as [->|_]; [congruence|]. apply IH.
Qed.
Definition node_term (t : term) : Prop := t <> TmKw KList /\ t <> TmKw KSet /\ t <> TmKw KValue.
Lemma expands_node ap es ix n : Forall good es -> Forall (fun e => node_term (snd (fst e))) es -> steps ap start es ((ix, n), false) ->
  free_floating ap && n_empty n && negb (is_some ix) = false -> expands ap (JObj (unread es)) (ix, ONode n).
Proof.
  intros G T St F. unfold expands. refine (ev_succ _ _ _ (ev_and _ _ St (ex_intro (fun N => forall n, N <= n -> 1 <= n) 1 (fun n L => L)))).
  intros m [H L] fm. cbn [expand_element element_body]. unfold expand_map. rewrite (context_good _ _ _ G). cbn [bind].
  destruct (types_good _ G) as [ts ->]. cbn [bind]. rewrite scoped_good. cbn [bind]. destruct (input_good ts) as [it ->]. cbn [bind]. rewrite (entries_good _ G). cbn [bind].
  assert (X : forall k, k = KList \/ k = KSet \/ k = KValue -> last_entry k es = None).
  { intros k K. apply last_none. eapply Forall_impl; [|exact T]. intros e E H'. unfold node_term in E. rewrite H' in E. destruct E as (A & B & D), K as [->|[->| ->]]; congruence. }
  rewrite !X by tauto. assert (Y : forall b : bool, (if b then None else None) = (None : option json)) by (intros []; reflexivity). rewrite Y.
  destruct m as [|m]; [lia|]. unfold expand_node. cbn [node_entries]. specialize (H (node_entries io ld fin rnd pf o (XE (S m)) m ap c)).
  unfold start in H. rewrite H. cbn [bind fst snd andb]. rewrite F. reflexivity.
Qed.

(** Entries that are added to an object, with their effect, whatever the identifier and the types
    are. *)
Definition state (ix : option string) (g : option (list iobj)) (inc : option (list inode)) (ps : list (id * list iobj)) (rs : option (list (id * list inode)))
  (i : option id) (ts : option (list id)) : nstate := ((ix, MkNode i ts g inc ps rs), false).
Definition nstates : Type := option id -> option (list id) -> nstate.
Definition adds (T : term -> Prop) (ap : option string) (m m' : jobject) (s s' : nstates) : Prop :=
  exists es, m' = m ++ unread es /\ Forall good es /\ Forall (fun e => T (snd (fst e))) es /\ forall i ts, steps ap (s i ts) es (s' i ts).
Definition avoids (T : term -> Prop) (m : jobject) : Prop := forall k t, In k (keys m) -> rd k t -> ~ T t.
Lemma adds_none T ap m s : adds T ap m m s s.
Proof. exists []. cbn. rewrite app_nil_r. repeat split; try constructor. intros i ts. apply steps_nil. Qed.
Lemma avoids_adds T T' ap m m' s s' : adds T ap m m' s s' -> avoids T' m -> (forall t, T t -> ~ T' t) -> avoids T' m'.
Proof.
  intros (es & -> & G & F & _) A D k t I R. unfold keys in I. rewrite map_app, in_app_iff in I. destruct I as [I|I]; [exact (A _ _ I R)|].
  destruct (good_keys _ _ G I) as (e & Ie & Re). rewrite (rd_fun _ _ _ R Re). apply D. exact (proj1 (Forall_forall _ _) F _ Ie).
Qed.
Lemma adds_trans (T U : term -> Prop) ap m m' m'' s s' s'' : adds T ap m m' s s' -> adds U ap m' m'' s' s'' -> adds (fun t => T t \/ U t) ap m m'' s s''.
Proof.
  intros (es & -> & G & F & S) (es' & -> & G' & F' & S'). exists (es ++ es'). rewrite unread_app, app_assoc. repeat split.
  - apply Forall_app; split; assumption.
  - apply Forall_app; split; (eapply Forall_impl; [|eassumption]; cbn; tauto).
  - intros i ts. eapply steps_app; [apply S|apply S'].
Qed.
Lemma adds_put kw ap v m m' s s' : kw <> KContext -> avoids (eq (TmKw kw)) m -> put rel co c kw v m = Ok m' ->
  (forall k i ts, steps ap (s i ts) [(k, TmKw kw, v)] (s' i ts)) -> adds (eq (TmKw kw)) ap m m' s s'.
Proof.
  intros N A. unfold put. destruct (kkey rel co c kw) as [k|] eqn:K; cbn [bind]; [|discriminate]. intros H S. injection H as <-. apply key_reads in K; [|exact N].
  exists [(k, TmKw kw, v)]. split; [|split; [|split; [|intros i ts; apply S]]].
  - apply insert_fresh. intros I. exact (A _ _ I K eq_refl).
  - constructor; [exact K|constructor].
  - constructor; [reflexivity|constructor].
Qed.

(** **** Identifiers, indexes, types *)
Lemma not_reversed ap : ap <> Some "@reverse" -> ap_is ap KReverse = false.
Proof. intros N. unfold ap_is. destruct ap as [k|]; [|reflexivity]. destruct (streq_spec k (kw_str KReverse)) as [->|_]; [destruct N|]; reflexivity. Qed.
Lemma no_key n k : has_key n k = false -> (match xo_mode o with JsonLd10 => true | JsonLd11 => negb (keyword_eqb k KIncluded) && negb (keyword_eqb k KType) end) && has_key n k = false.
Proof. intros ->. apply andb_false_r. Qed.
Lemma step_id ap k s i ix ts g inc ps rs : ap <> Some "@reverse" -> read s true None = Ok (Some (TmId i)) ->
  steps ap ((ix, MkNode None ts g inc ps rs), false) [(k, TmKw KId, JStr s)] ((ix, MkNode (Some i) ts g inc ps rs), false).
Proof.
  intros N H. apply steps_one, ev_always. intros n self. cbn [node_entry]. unfold keyword_entry. rewrite (not_reversed _ N), no_key by reflexivity.
  cbn [as_str]. unfold xiri. rewrite H. reflexivity.
Qed.
Lemma step_index ap k i n b : ap <> Some "@reverse" -> steps ap ((None, n), b) [(k, TmKw KIndex, JStr i)] ((Some i, n), b).
Proof.
  intros N. apply steps_one, ev_always. intros m self. cbn [node_entry]. unfold keyword_entry. rewrite (not_reversed _ N). cbn [snd fst]. rewrite no_key by reflexivity. reflexivity.
Qed.
Definition type_read (t : id) (j : json) : Prop := kept_name io c t /\ exists s, j = JStr s /\ forall dr, read s dr (Some AKeep) = Ok (Some (TmId t)).
Lemma step_types ap k v ts ix i g inc ps rs : ap <> Some "@reverse" -> Forall2 type_read ts (force_array v) -> ts <> [] ->
  steps ap ((ix, MkNode i None g inc ps rs), false) [(k, TmKw KType, v)] ((ix, MkNode i (Some ts) g inc ps rs), false).
Proof.
  intros N F NE. apply steps_one, ev_always. intros n self. cbn [node_entry]. unfold keyword_entry. rewrite (not_reversed _ N), no_key by reflexivity. cbn [snd fst].
  assert (E : expand_types io o c v (MkNode i None g inc ps rs) = Ok (MkNode i (Some ts) g inc ps rs)); [|rewrite E; reflexivity].
  unfold expand_types. remember (force_array v) as l eqn:L. clear L.
  assert (G : forall p, p <> None \/ ts <> [] -> match fold_r (fun n t => match as_str t with
    | Some t => do t <- map_err (fun _ => XForbiddenVocab) (xiri io c t true (Some (xo_vocab o))) ;
        match t with
        | Some t => match id_of_term t with
                    | Some i => do keep <- invalid_policy o i XInvalidTypeValue ; Ok (if keep then push_type i n else n)
                    | None => Err XInvalidTypeValue
                    end
        | None => Ok n
        end
    | None => Err XInvalidTypeValue
    end) (MkNode i p g inc ps rs) l with Ok n => n = MkNode i (Some (opt_list p ++ ts)) g inc ps rs | Err _ => False end).
  { clear NE. induction F as [|t j ts l [K (s & -> & R)] F IH]; intros p NE.
    - destruct p; cbn; [rewrite app_nil_r; reflexivity|tauto].
    - assert (XR : xiri io c s true (Some (xo_vocab o)) = Ok (Some (TmId t))) by (unfold xiri; rewrite VK, R; reflexivity).
      cbn [fold_r as_str]. rewrite XR. cbn [map_err bind id_of_term]. rewrite (name_policy _ _ K). cbn [bind push_type].
      assert (X : Some (opt_list p ++ [t]) <> None) by congruence. specialize (IH (Some (opt_list p ++ [t])) (or_introl X)). cbn [opt_list] in IH. rewrite <- app_assoc in IH. exact IH. }
  specialize (G None (or_intror NE)). destruct (fold_r _ _ l) as [n'|]; [|contradiction]. rewrite G. reflexivity.
Qed.
Lemma leaves_single j : is_array j = false -> leaves j = [j].
Proof. destruct j; reflexivity || discriminate. Qed.
Lemma leaves_flat l : Forall (fun j => is_array j = false) l -> flat_map leaves l = l.
Proof. induction 1 as [|j l A F IH]; [reflexivity|]. cbn [flat_map]. rewrite (leaves_single _ A), IH. reflexivity. Qed.
(** An object with one key. *)
Lemma built_single mp k cs : built mp cs -> complete mp cs -> cs <> [] -> (forall e, In e cs -> fst e = k) ->
  exists v, mp = [(k, v)] /\ force_array v = flat_map snd cs.
Proof.
  intros [N V K] C NE E. assert (U : forall cs, (forall e, In e cs -> fst e = k) -> under k cs = flat_map snd cs).
  { clear. unfold under. induction cs as [|e cs IH]; intros E; [reflexivity|]. cbn [flat_map]. rewrite (E e), streq_refl, IH; [reflexivity| |left; reflexivity]. intros x I. apply E. right. exact I. }
  assert (KK : forall k', In k' (keys mp) -> k' = k).
  { intros k' I. apply K, in_map_iff in I. destruct I as (e & <- & I). apply E, I. }
  assert (I : In k (keys mp)).
  { destruct cs as [|e cs]; [congruence|]. rewrite <- (E e (or_introl eq_refl)). apply C. left. reflexivity. }
  unfold keys in *. destruct mp as [|[k1 v] [|[k2 w] mp]]; [contradiction| |].
  - exists v. assert (k1 = k) as -> by (apply KK; left; reflexivity). split; [reflexivity|]. specialize (V k). unfold values_of in V. cbn [assoc] in V. rewrite streq_refl, (U _ E) in V.
    rewrite <- V. destruct v; reflexivity.
  - exfalso. cbn [map fst] in *. inversion N as [|? ? NI _]; subst. apply NI. left. rewrite (KK k1), (KK k2); cbn; tauto.
Qed.
(** The entries for the identifier and for the types. *)
Definition id_entry (i : option id) (mi : list xentry) : Prop :=
  i = None /\ mi = [] \/
  exists a k s, i = Some a /\ mi = [(k, TmKw KId, JStr s)] /\ kkey rel co c KId = Ok k /\ read s true None = Ok (Some (TmId a)).
Definition types_entry (ts : option (list id)) (mt : list xentry) : Prop :=
  ts = None /\ mt = [] \/
  exists l k w, ts = Some l /\ l <> [] /\ mt = [(k, TmKw KType, w)] /\ kkey rel co c KType = Ok k /\ Forall2 type_read l (force_array w).
Lemma id_good i mi : id_entry i mi -> Forall good mi /\ Forall (fun e => snd (fst e) = TmKw KId) mi.
Proof.
  intros [[_ ->]|(a & k & s & _ & -> & K & _)]; [split; constructor|]. split; (constructor; [|constructor]); [|reflexivity]. apply key_reads in K; [exact K|discriminate].
Qed.
Lemma types_good_entry ts mt : types_entry ts mt -> Forall good mt /\ Forall (fun e => snd (fst e) = TmKw KType) mt.
Proof.
  intros [[_ ->]|(l & k & w & _ & _ & -> & K & _)]; [split; constructor|]. split; (constructor; [|constructor]); [|reflexivity]. apply key_reads in K; [exact K|discriminate].
Qed.
Lemma id_steps ap i mi ix g inc ps rs ts : ap <> Some "@reverse" -> id_entry i mi -> steps ap (state ix g inc ps rs None ts) mi (state ix g inc ps rs i ts).
Proof. intros N [[-> ->]|(a & k & s & -> & -> & _ & R)]; [apply steps_nil|]. apply step_id; assumption. Qed.
Lemma types_steps ap ts mt ix g inc ps rs i : ap <> Some "@reverse" -> types_entry ts mt -> steps ap (state ix g inc ps rs i None) mt (state ix g inc ps rs i ts).
Proof. intros N [[-> ->]|(l & k & w & -> & NE & -> & _ & F)]; [apply steps_nil|]. apply step_types; assumption. Qed.
Lemma types_added ts m m' : ts <> Some [] -> Forall (kept_name io c) (opt_list ts) -> avoids (eq (TmKw KType)) m ->
  compact_types rel co c c ts m = Ok m' -> exists mt, m' = m ++ unread mt /\ types_entry ts mt.
Proof.
  intros NE K A H. destruct ts as [ts|]; [|cbn in H; injection H as <-; exists []; rewrite app_nil_r; split; [reflexivity|left; auto]]. cbn [opt_list] in K. unfold compact_types in H. cbn [opt_list] in H.
  destruct ts as [|t ts]; [congruence|].
  assert (TR : forall t s, kept_name io c t -> kiri rel co c (TmId t) true = Ok s -> type_read t (opt_string s)).
  { intros t' s Kt X. split; [exact Kt|]. destruct s as [s|]; [|destruct (kiri_some _ _ _ _ _ X)]. exists s. split; [reflexivity|]. intros dr. apply kiri_full in X. eapply name_read; eassumption. }
  match type of H with bind ?r _ = _ => destruct r as [v|] eqn:E end; cbn [bind] in H; [|discriminate].
  assert (F : Forall2 type_read (t :: ts) (leaves v)).
  { inversion K as [|? ? K1 K2]; subst.
    assert (Fm : forall l js, Forall (kept_name io c) l -> map_r (fun t => do s <- kiri rel co c (TmId t) true ; Ok (opt_string s)) l = Ok js -> Forall2 type_read l js).
    { clear -TR. induction l as [|t l IH]; intros js K H; cbn [map_r] in H; [injection H as <-; constructor|]. inversion K; subst.
      destruct (kiri rel co c (TmId t) true) as [s|] eqn:E; cbn [bind] in H; [|discriminate]. destruct (map_r _ l) as [ys|]; cbn [bind] in H; [|discriminate]. injection H as <-.
      constructor; [apply TR; assumption|apply IH; [assumption|reflexivity]]. }
    destruct ts as [|t2 ts].
    - destruct (kiri rel co c (TmId t) true) as [s|] eqn:X; cbn [bind] in E; [|discriminate]. injection E as <-. pose proof (TR _ _ K1 X) as (A1 & s1 & A2 & A3). rewrite A2. cbn [leaves].
      constructor; [|constructor]. split; [exact A1|]. exists s1. auto.
    - match type of E with bind ?r _ = _ => destruct r as [js|] eqn:X end; cbn [bind] in E; [|discriminate]. injection E as <-. cbn [leaves].
      pose proof (Fm _ _ K X) as F. rewrite leaves_flat; [exact F|]. clear -F. induction F as [|? ? ? ? (_ & s & -> & _)]; constructor; auto. }
  destruct (kkey rel co c KType) as [k|] eqn:KK; cbn [bind] in H; [|discriminate]. pose proof (key_reads KType k ltac:(discriminate) KK) as RK.
  rewrite <- (app_nil_r m) in H. apply kadd_app in H; [|intros I; exact (A _ _ I RK eq_refl)]. destruct H as (mp & -> & H).
  pose proof (built_add _ _ _ _ _ _ built_nil H) as B. pose proof (complete_add [] _ _ _ _ _ (NoDup_nil _) complete_nil H) as C. cbn [app] in *.
  destruct (built_single mp k _ B (C ltac:(left; intros X; rewrite X in F; inversion F)) ltac:(discriminate) ltac:(intros e [<-|[]]; reflexivity)) as (w & -> & W).
  cbn [flat_map snd] in W. rewrite app_nil_r in W. exists [(k, TmKw KType, w)]. split; [reflexivity|]. right. exists (t :: ts), k, w. split; [reflexivity|]. split; [discriminate|].
  split; [reflexivity|]. split; [exact KK|]. rewrite W. exact F.
Qed.

(** **** Lists and graphs *)
Lemma expands_list key kl js xs ix ki : rd kl (TmKw KList) -> (forall i, ix = Some i -> rd ki (TmKw KIndex)) -> key <> "@graph" ->
  Forall2 (expands (Some key)) js xs ->
  expands (Some key) (JObj (unread ((kl, TmKw KList, JArr js) :: match ix with Some i => [(ki, TmKw KIndex, JStr i)] | None => [] end))) (ix, OList xs).
Proof.
  intros RL RI NG F. apply ev_forall2 in F. revert F. apply ev_succ. intros n F fm. cbn [expand_element element_body].
  set (es := (kl, TmKw KList, JArr js) :: match ix with Some i => [(ki, TmKw KIndex, JStr i)] | None => [] end).
  assert (G : Forall good es) by (constructor; [exact RL|]; destruct ix as [i|]; constructor; [exact (RI i eq_refl)|constructor]).
  unfold expand_map. rewrite (context_good _ _ _ G). cbn [bind].
  destruct (types_good _ G) as [ts ->]. cbn [bind]. rewrite scoped_good. cbn [bind]. destruct (input_good ts) as [it ->]. cbn [bind]. rewrite (entries_good _ G). cbn [bind is_some andb].
  assert (E : ap_is (Some key) KGraph = false) by (cbn; destruct (streq_spec key "@graph"); [contradiction|reflexivity]). rewrite E. cbn [negb].
  assert (L : last_entry KList es = Some (JArr js)) by (destruct ix; reflexivity). rewrite L.
  assert (I : list_index es = Ok ix) by (destruct ix; reflexivity). rewrite I. cbn [bind force_array].
  assert (R : flat_r (fun item => do x <- XE n c (Some key) item false ; Ok (items x)) js = Ok xs).
  { clear -F. induction F as [|j x l xs H F IH]; [reflexivity|]. cbn [flat_r]. rewrite H. cbn [bind items]. rewrite IH. reflexivity. }
  rewrite R. reflexivity.
Qed.
Lemma oset_all xs : Forall (fun x => wf (snd x)) xs -> distinct same_i xs -> oset fin rnd xs = xs.
Proof.
  intros W D. unfold oset, oset_insert. rewrite (set_insert_all (iobj_hash fin rnd) (iobj_eqb fin rnd) same_i xs []); [reflexivity| |exact D].
  cbn [app]. intros x y I J. unfold iobj_eqb. rewrite andb_true_iff, opt_streq. intros [E X]. split; [exact E|].
  apply (proj1 (eqb_both fin rnd)) in X; [exact X|exact (Forall_in _ _ _ W I)|exact (Forall_in _ _ _ W J)].
Qed.
Lemma top_nodes (xs : list iobj) : Forall (fun x => exists n, snd x = ONode n) xs -> filter top_level xs = xs.
Proof. induction 1 as [|x xs [n E] F IH]; [reflexivity|]. cbn [filter]. unfold top_level at 1. rewrite E, IH. reflexivity. Qed.
Lemma step_graph ap k v xs ix i ts inc ps rs : ap <> Some "@reverse" -> Forall2 (expands (Some "@graph")) (force_array v) xs ->
  Forall (fun x => exists n, snd x = ONode n) xs -> Forall (fun x => wf (snd x)) xs -> distinct same_i xs ->
  steps ap ((ix, MkNode i ts None inc ps rs), false) [(k, TmKw KGraph, v)] ((ix, MkNode i ts (Some xs) inc ps rs), false).
Proof.
  intros N F Nd W D. apply expand_all_items in F; [|apply (unlist_kw KGraph)]. apply steps_one. revert F. apply ev_impl. intros n F self. destruct (F false) as (x & E & I & _).
  cbn [node_entry]. unfold keyword_entry. rewrite (not_reversed _ N), no_key by reflexivity. rewrite E. cbn [bind]. rewrite I, (top_nodes _ Nd), (oset_all _ W D). reflexivity.
Qed.
Lemma as_nodes_all e (xs : list iobj) : Forall (fun x => exists n, snd x = ONode n) xs -> exists ns, as_nodes e xs = Ok ns /\ xs = map (fun n : inode => (fst n, ONode (snd n))) ns.
Proof.
  unfold as_nodes. induction 1 as [|[ix x] xs [n E] F (ns & H & ->)]; [exists []; split; reflexivity|]. cbn [snd] in E. subst x. exists ((ix, n) :: ns). cbn [map_r as_node snd fst]. cbn [bind].
  rewrite H. split; reflexivity.
Qed.
Lemma nset_all xs : Forall (fun x => wf_node (snd x)) xs -> distinct same_in xs -> fold_left (nset_insert fin rnd) xs [] = xs.
Proof.
  intros W D. unfold nset_insert. rewrite (set_insert_all (inode_hash fin rnd) (inode_eqb fin rnd) same_in xs []); [reflexivity| |exact D].
  cbn [app]. intros x y I J. unfold inode_eqb. rewrite andb_true_iff, opt_streq. intros [E X]. split; [exact E|].
  apply (proj2 (eqb_both fin rnd)) in X; [exact X|exact (Forall_in _ _ _ W I)|exact (Forall_in _ _ _ W J)].
Qed.
Lemma step_included ap k v xs ix i ts g ps rs : ap <> Some "@reverse" -> xo_mode o = JsonLd11 -> 
  Forall2 (expands (Some "@included")) (force_array v) (map (fun n : inode => (fst n, ONode (snd n))) xs) ->
  Forall (fun x => wf_node (snd x)) xs -> distinct same_in xs ->
  steps ap ((ix, MkNode i ts g None ps rs), false) [(k, TmKw KIncluded, v)] ((ix, MkNode i ts g (Some xs) ps rs), false).
Proof.
  intros N M F W D. apply expand_all_items in F; [|apply (unlist_kw KIncluded)]. apply steps_one. revert F. apply ev_impl. intros n F self. destruct (F false) as (x & E & I & _).
  cbn [node_entry]. unfold keyword_entry. rewrite (not_reversed _ N), no_key by reflexivity. rewrite M, E. cbn [bind]. rewrite I.
  assert (A : as_nodes XInvalidIncludedValue (map (fun n : inode => (fst n, ONode (snd n))) xs) = Ok xs).
  { clear. unfold as_nodes. induction xs as [|[ix n] xs IH]; [reflexivity|]. cbn [map map_r as_node snd fst bind]. rewrite IH. reflexivity. }
  rewrite A. cbn [bind]. unfold on_node. cbn [fst snd add_included opt_list]. exact (f_equal (fun l => Ok ((ix, MkNode i ts g (Some l) ps rs), false)) (nset_all _ W D)).
Qed.

(** **** Items *)
Definition value_fits (d : option ndef) (v : value) : Prop :=
  forall s, v = VLang s -> (mapped_type d = None \/ mapped_type d = Some TyNone) /\
    (ls_language s = None -> lang_for c d = None) /\ (ls_direction s = None -> dir_for c d = None).
Definition node_place (ap ap' : option string) (n : node) : Prop :=
  ap' <> Some "@reverse" /\ (n_empty n = true -> free_floating ap' = false /\
    (mapped_type (prop_def c ap) = Some TyId \/ mapped_type (prop_def c ap) = Some TyVocab -> ap = ap')).
Definition place (ap ap' : option string) (x : obj) : Prop :=
  match x with
  | OVal v => exists k, ap = Some k /\ ap' = Some k /\ k <> "@graph" /\ value_fits (prop_def c (Some k)) v
  | OList _ => False
  | ONode n => node_place ap ap' n
  end.
Definition item_place (key : string) (ap' : option string) (x : obj) : Prop :=
  match x with
  | OList l => ap' = Some key /\ key <> "@graph" /\ Forall (fun y => place (Some key) (Some key) (snd y)) l
  | x => place (Some key) ap' x
  end.
Lemma same_i_node (x y : iobj) : same_i x y -> (exists n, snd x = ONode n) -> exists n, snd y = ONode n.
Proof. intros [_ S] [n E]. rewrite E in S. inversion S; subst. eauto. Qed.
Lemma same_all_wf (l m : list iobj) : Forall2 same_i l m -> Forall (fun x => wf (snd x)) l -> Forall (fun x => wf (snd x)) m.
Proof.
  induction 1 as [|x y l m [_ S] F IH]; intros W; constructor; inversion W; subst; auto. eapply (proj1 same_wf_both); eassumption.
Qed.
Lemma same_all_distinct (l m : list iobj) : Forall2 same_i l m -> distinct same_i l -> distinct same_i m.
Proof. apply distinct_related; [exact same_i_sym|exact same_i_trans]. Qed.
Lemma same_all_nodes (l m : list iobj) : Forall2 same_i l m -> Forall (fun x => exists n, snd x = ONode n) l -> Forall (fun x => exists n, snd x = ONode n) m.
Proof. induction 1 as [|x y l m S F IH]; intros W; constructor; inversion W; subst; auto. eapply same_i_node; eassumption. Qed.
Lemma full_place ap ap' x : full_node x -> ap' <> Some "@reverse" -> place ap ap' (snd x).
Proof. intros (n & E & H) N. rewrite E. split; [exact N|]. rewrite H. discriminate. Qed.
Lemma expands_filter ap js xs : Forall2 (expands ap) js xs -> filter (fun j => negb (is_null j)) js = js.
Proof. induction 1 as [|j x js xs H F IH]; [reflexivity|]. cbn [filter]. rewrite (expands_some _ _ _ H), IH. reflexivity. Qed.
Lemma expands_vs ap js xs : unlist ap -> Forall2 (expands ap) js xs -> filter (fun j => negb (is_null j)) js = js /\ Forall (fun j => is_array j = false) js.
Proof.
  intros UL F. split; [eapply expands_filter, F|]. induction F as [|j x js xs H F IH]; constructor; [eapply expands_single; eassumption|exact IH].
Qed.

(** What becomes of an object. *)
Definition rest_term (t : term) : Prop := node_term t /\ t <> TmKw KId /\ t <> TmKw KType.
Definition node_back (ap ap' : option string) (ix : option string) (n : node) (j : json) : Prop :=
  (exists i s, n = node_new (Some i) /\ lowered ap ix = None /\ j = JStr s /\ expands ap' (JStr s) (None, ONode n)) \/
  exists mi mt es g inc ps rs, j = JObj (unread (mi ++ mt ++ es)) /\ id_entry (n_id n) mi /\ types_entry (n_types n) mt /\
    Forall good es /\ Forall (fun e => rest_term (snd (fst e))) es /\
    (forall i ts, steps ap' (state None None None [] None i ts) es (state (lowered ap ix) g inc ps rs i ts)) /\
    forall i ts, same_node (MkNode i ts (n_graph n) (n_included n) (n_props n) (n_reverse n)) (MkNode i ts g inc ps rs).
Definition back (ap ap' : option string) (x : iobj) (j : json) : Prop :=
  match snd x with
  | ONode n => node_back ap ap' (fst x) n j
  | y => exists x', same_i (lowered ap (fst x), y) x' /\ expands ap' j x'
  end.
Lemma same_empty n n' : same_node n n' -> n_empty n' = n_empty n.
Proof.
  intros S. inversion S as [? ? ? ? ? ? ? ? ? ? ? B1 B2 B3 B4 B5]; subst. unfold n_empty. cbn [n_types n_graph n_included n_props n_reverse].
  apply reordered_length in B4. inversion B1; inversion B2; inversion B3; inversion B5; subst; cbn [is_some negb andb]; try reflexivity.
  all: destruct ps, ps'; try reflexivity; discriminate.
Qed.
Lemma node_eta n : MkNode (n_id n) (n_types n) (n_graph n) (n_included n) (n_props n) (n_reverse n) = n.
Proof. destruct n. reflexivity. Qed.
Lemma rest_node es : Forall (fun e : xentry => rest_term (snd (fst e))) es -> Forall (fun e => node_term (snd (fst e))) es.
Proof. apply Forall_impl. intros e [H _]. exact H. Qed.
Lemma id_node i mi : id_entry i mi -> Forall (fun e => node_term (snd (fst e))) mi.
Proof. intros H. apply id_good in H. destruct H as [_ H]. eapply Forall_impl; [|exact H]. intros e ->. repeat split; discriminate. Qed.
Lemma types_node ts mt : types_entry ts mt -> Forall (fun e => node_term (snd (fst e))) mt.
Proof. intros H. apply types_good_entry in H. destruct H as [_ H]. eapply Forall_impl; [|exact H]. intros e ->. repeat split; discriminate. Qed.
Lemma back_expands ap ap' x j : place ap ap' (snd x) -> back ap ap' x j -> exists x', same_i (lowered ap (fst x), snd x) x' /\ expands ap' j x'.
Proof.
  destruct x as [ix [v|n|l]]; cbn [fst snd place]; intros P B; [exact B| |destruct P]. cbn [back fst snd] in B. destruct P as [NR P].
  destruct B as [(i & s & -> & L & -> & X)|(mi & mt & es & g & inc & ps & rs & -> & Hi & Ht & G & T & St & S)].
  - exists (None, ONode (node_new (Some i))). rewrite L. split; [|exact X]. split; [reflexivity|apply (proj1 same_refl_both)].
  - specialize (S (n_id n) (n_types n)). rewrite node_eta in S. exists (lowered ap ix, ONode (MkNode (n_id n) (n_types n) g inc ps rs)). split; [split; [reflexivity|constructor; exact S]|].
    apply expands_node.
    + apply Forall_app. split; [apply (id_good _ _ Hi)|]. apply Forall_app. split; [apply (types_good_entry _ _ Ht)|exact G].
    + apply Forall_app. split; [apply (id_node _ _ Hi)|]. apply Forall_app. split; [apply (types_node _ _ Ht)|apply rest_node, T].
    + eapply steps_app; [apply (id_steps _ _ _ None None None [] None None NR Hi)|]. eapply steps_app; [apply (types_steps _ _ _ None None None [] None _ NR Ht)|]. apply St.
    + rewrite (same_empty _ _ S). destruct (n_empty n) eqn:Em; [|rewrite andb_false_r; reflexivity]. rewrite (proj1 (P eq_refl)). reflexivity.
Qed.

Section Level.
Variable rec : option string -> obj -> actx -> actx -> option string -> result json kerr.
Hypothesis HR : forall x ap ap' j, kept x -> wf (snd x) -> place ap ap' (snd x) -> rec (fst x) (snd x) c c ap = Ok j -> back ap ap' x j.

Lemma rec_expands x ap ap' j : kept x -> wf (snd x) -> place ap ap' (snd x) -> rec (fst x) (snd x) c c ap = Ok j ->
  exists x', same_i (lowered ap (fst x), snd x) x' /\ expands ap' j x'.
Proof. intros K W P H. apply back_expands; [exact P|]. apply HR; assumption. Qed.
Definition unlowered (ap : option string) : Prop := c_contains (container_ap c ap) CKIndex = false.
Lemma lowered_same ap ix : unlowered ap -> lowered ap ix = ix.
Proof. unfold unlowered, lowered. intros ->. reflexivity. Qed.
Lemma map_trip ap ap' l : unlowered ap -> Forall (fun y => kept y /\ wf (snd y) /\ place ap ap' (snd y)) l -> forall js, 
  map_r (fun y : iobj => rec (fst y) (snd y) c c ap) l = Ok js -> exists xs, Forall2 same_i l xs /\ Forall2 (expands ap') js xs.
Proof.
  intros UL. induction 1 as [|x l (K & W & P) F IH]; intros js H; cbn [map_r] in H; [injection H as <-; exists []; split; constructor|].
  destruct (rec (fst x) (snd x) c c ap) as [j|] eqn:R; cbn [bind] in H; [|discriminate]. destruct (map_r _ l) as [ys|] eqn:E; cbn [bind] in H; [|discriminate]. injection H as <-.
  destruct (rec_expands _ _ _ _ K W P R) as (x' & S & X). rewrite (lowered_same _ _ UL) in S. destruct x as [ix x]. destruct (IH _ eq_refl) as (xs & Ss & Xs). exists (x' :: xs). split; constructor; assumption.
Qed.
Lemma graph_content ap' key g j : unlowered (Some key) -> unlist ap' -> ap' <> Some "@reverse" -> Forall (fun x => kept x /\ full_node x) g -> Forall (fun x => wf (snd x)) g ->
  content rec c key g j -> exists xs, Forall2 same_i g xs /\ Forall2 (expands ap') (force_array j) xs.
Proof.
  intros UW UL N K W (js & M & J). cbn zeta in J. destruct (map_trip (Some key) ap' g UW) with (js := js) as (xs & S & X); [|exact M|].
  - clear -K W N. induction K as [|x g [K Fx] _ IH]; constructor; inversion W; subst; auto. split; [exact K|]. split; [assumption|]. apply full_place; assumption.
  - exists xs. split; [exact S|]. destruct (expands_vs _ _ _ UL X) as [E A]. rewrite E in J. destruct J as [->|J]; [exact X|]. subst js. inversion A; subst. 
    rewrite (ltac:(destruct j; try reflexivity; discriminate) : force_array j = [j]). exact X.
Qed.
Lemma flat_lowered key : flatb key = true -> unlowered (Some key).
Proof. intros F. unfold unlowered. cbn [container_ap]. apply (fk_container _ _ (flatb_key _ F)). tauto. Qed.
Lemma key_unlist key : c_contains (container_of c key) CKList = false -> unlist (Some key).
Proof.
  intros H. unfold unlist. destruct (streq_spec key "@type") as [->|N]; [reflexivity|]. rewrite <- container_key by exact N. exact H.
Qed.
Lemma list_content key l js : unlowered (Some key) -> Forall (fun y => kept y /\ is_list (snd y) = false) l -> Forall (fun y => wf (snd y)) l ->
  Forall (fun y => place (Some key) (Some key) (snd y)) l -> map_r (fun y : iobj => rec (fst y) (snd y) c c (Some key)) l = Ok js ->
  exists xs, Forall2 same_i l xs /\ Forall2 (expands (Some key)) js xs /\ filter (fun j => negb (is_null j)) js = js.
Proof.
  intros UW Kl Wl P M. destruct (map_trip (Some key) (Some key) l UW) with (js := js) as (xs & S & X); [|exact M|].
  - clear -Kl Wl P. induction Kl as [|x l [Kx _] _ IH]; constructor; inversion Wl; inversion P; subst; auto.
  - exists xs. split; [exact S|]. split; [exact X|]. eapply expands_filter, X.
Qed.
Lemma item_trip key x j ap' : flatb key = true -> unlist ap' -> kept x -> wf (snd x) -> item_place key ap' (snd x) -> item_value rel co rec c key x j ->
  exists x', is_array j = false /\ same_i x x' /\ expands ap' j x'.
Proof.
  intros FK UL K W P V. pose proof (flat_lowered _ FK) as UW. pose proof (no_graph_key key) as NGK.
  destruct V as [ix x j NL NG H|ix l js a kl ki m M KL KI A ->|ix i g j kg ki s kx m C KG KI KX ->|ix g j CG|ix g j ki CG].
  - assert (P' : place (Some key) ap' x) by (destruct x; [exact P|exact P|discriminate NL]). destruct (rec_expands _ _ _ _ K W P' H) as (x' & S & X). rewrite (lowered_same _ _ UW) in S. exists x'. split; [|auto].
    eapply expands_single; eassumption.
  - cbn [snd item_place] in P. destruct P as (-> & NG & P). inversion K as [| |? ? Kl]; subst. inversion W as [| |? Wl]; subst.
    destruct (list_content key l js UW Kl Wl P M) as (xs & S & X & E). destruct (expands_vs _ _ _ UL X) as [_ B]. cbn zeta in A. rewrite E in A. assert (a = js) as ->.
    { destruct A as [->|A]; [reflexivity|]. rewrite A in B. inversion B; subst. discriminate. }
    exists (ix, OList xs). split; [reflexivity|]. split; [split; [reflexivity|constructor; exact S]|].
    apply key_reads in KL; [|discriminate].
    match goal with |- expands _ (JObj ?m) _ => replace m with (unread ((kl, TmKw KList, JArr js) :: match ix with Some i => [(ki, TmKw KIndex, JStr i)] | None => [] end)) end.
    + apply expands_list; try assumption. intros i ->. apply key_reads in KI; [exact KI|discriminate].
    + destruct ix as [i|]; [|reflexivity]. apply key_reads in KI; [|discriminate]. rewrite insert_fresh; [reflexivity|]. cbn. intros [E1|[]]. subst ki. pose proof (rd_fun _ _ _ KL KI). discriminate.
  - inversion K as [|? ? K'|]; subst. inversion K' as [? ? ? ? ? ? ? Ki _ _ Kg _ _ _ _ _ _]; subst. cbn [opt_list] in *. inversion W as [|? W'|]; subst. inversion W' as [? ? ? ? ? ? Wg Dg _ _ _ _ _ _]; subst. cbn [opt_list] in *.
    destruct (graph_content (Some "@graph") key g j UW (unlist_kw KGraph) ltac:(discriminate) Kg Wg C) as (xs & S & X).
    cbn [item_place place] in P. destruct P as [NR _]. apply key_reads in KG; [|discriminate].
    exists (ix, ONode (MkNode i None (Some xs) None [] None)). split; [reflexivity|]. split.
    { split; [reflexivity|]. constructor. constructor; try constructor; try (apply (Reordered _ _ _ []); constructor). apply (Reordered _ _ _ xs); [apply Permutation_refl|exact S]. }
    set (ei := match i with Some _ => [(ki, TmKw KId, JStr s)] | None => [] end : list xentry).
    set (ex := match ix with Some i => [(kx, TmKw KIndex, JStr i)] | None => [] end : list xentry).
    assert (Ri : forall y, i = Some y -> rd ki (TmKw KId)) by (intros y ->; eapply keyword_plain; [discriminate|exact (proj1 KI)]).
    assert (Rx : forall y, ix = Some y -> rd kx (TmKw KIndex)) by (intros y ->; apply key_reads in KX; [exact KX|discriminate]).
    match goal with |- expands _ (JObj ?m) _ => replace m with (unread ((kg, TmKw KGraph, j) :: ei ++ ex)) end.
    + apply expands_node.
      * constructor; [exact KG|]. apply Forall_app. split; [subst ei; destruct i as [y|]; [constructor; [exact (Ri y eq_refl)|constructor]|constructor]|subst ex; destruct ix as [y|]; [constructor; [exact (Rx y eq_refl)|constructor]|constructor]].
      * constructor; [cbn; repeat split; discriminate|]. apply Forall_app. split; [subst ei; destruct i|subst ex; destruct ix]; repeat constructor; cbn; discriminate.
      * change ((kg, TmKw KGraph, j) :: ei ++ ex) with ([(kg, TmKw KGraph, j)] ++ ei ++ ex).
        apply (steps_app _ _ _ ((None, MkNode None None (Some xs) None [] None), false)).
        { apply step_graph; [exact NR|exact X| | |].
          - eapply same_all_nodes; [exact S|]. clear -Kg. induction Kg as [|x g [_ (n & E & _)] _ IH]; constructor; eauto.
          - eapply same_all_wf; eassumption.
          - eapply same_all_distinct; eassumption. }
        apply (steps_app _ _ _ ((None, MkNode i None (Some xs) None [] None), false)).
        { subst ei. destruct i as [i|]; [|apply steps_nil]. apply step_id; [exact NR|]. destruct KI as [_ KI]. apply kiri_full in KI. eapply id_read; [|exact KI]. apply Ki. reflexivity. }
        subst ex. destruct ix as [ix|]; [|apply steps_nil]. apply step_index, NR.
      * cbn [n_empty n_types n_graph is_some negb andb]. rewrite andb_false_r. reflexivity.
    + assert (NI : forall y, i = Some y -> kg <> ki) by (intros y Ey E; subst ki; pose proof (rd_fun _ _ _ KG (Ri _ Ey)); discriminate).
      assert (NX : forall y, ix = Some y -> kg <> kx) by (intros y Ey E; subst kx; pose proof (rd_fun _ _ _ KG (Rx _ Ey)); discriminate).
      assert (NIX : forall y z, i = Some y -> ix = Some z -> ki <> kx) by (intros y z Ey Ez E; subst kx; pose proof (rd_fun _ _ _ (Ri _ Ey) (Rx _ Ez)); discriminate).
      subst ei ex. destruct i as [i|], ix as [ix|]; cbn [app].
      * rewrite (insert_fresh ki), (insert_fresh kx); [reflexivity| |]; cbn; intros E; intuition eauto.
      * rewrite (insert_fresh ki); [reflexivity|]. cbn; intros [E|[]]. eapply NI; eauto.
      * rewrite (insert_fresh kx); [reflexivity|]. cbn; intros [E|[]]. eapply NX; eauto.
      * reflexivity.
  - congruence.
  - congruence.
Qed.

(** **** Members of maps *)
Definition unnone (t : option term) : option term := match t with Some TmNull | Some (TmKw KNone) => None | _ => t end.
(** [x'] is what the value [j] of the key [k] means, in the map of the term [key]. *)
Definition member (key k : string) (j : json) (x' : iobj) : Prop :=
  exists t, xkey io o c k = Ok t /\
  if has_container (prop_def c (Some key)) CKLanguage
  then exists s, j = JStr s /\ x' = (None, OVal (string_value s (match t with Some (TmKw KNone) => None | _ => Some k end) (dir_for c (prop_def c (Some key)))))
  else exists y, expands (Some key) j y /\ index_item io fin rnd o c (has_container (prop_def c (Some key))) "@index" k (unnone t) y = Ok (Some x').
Record fits (F : string -> option string) (key : string) (x : iobj) : Prop := {
  ft_place : item_place key (F key) (snd x);
  ft_unlist : flatb key = true -> unlist (F key);
  ft_own : flatb key = false -> F key = Some key /\ key <> "@graph" /\ key <> "@reverse";
  ft_list : c_contains (container_of c key) CKList = true -> exists l, x = (None, OList l);
  ft_map : mapped key = true -> is_list (snd x) = false /\ ~ a_graph (snd x);
  ft_index : c_contains (container_of c key) CKIndex = true -> forall i, fst x = Some i -> map_key io c i;
  ft_id : c_contains (container_of c key) CKId = true -> exists n, snd x = ONode n /\ forall i, n_id n = Some i -> map_id io c i;
  ft_type : c_contains (container_of c key) CKType = true -> exists n, snd x = ONode n;
  ft_language : c_contains (container_of c key) CKLanguage = true -> fst x = None /\ exists v s, snd x = OVal v /\ value_value v = JStr s /\
    string_value s (v_language v) (dir_for c (prop_def c (Some key))) = v /\
    forall l, v_language v = Some l -> read l false (Some AKeep) <> Ok (Some (TmKw KNone))
}.
Lemma key_key k t : read k false (Some AKeep) = Ok t -> xkey io o c k = Ok t.
Proof. intros H. unfold xkey, xiri. rewrite VK, H. reflexivity. Qed.
Lemma none_key k : kkey rel co c KNone = Ok k -> xkey io o c k = Ok (Some (TmKw KNone)).
Proof. intros H. apply rd_key. apply key_reads in H; [exact H|discriminate]. Qed.
Lemma map_key_key k : map_key io c k -> exists t, xkey io o c k = Ok (Some t) /\ unnone (Some t) = Some t.
Proof. intros (t & R & N1 & N2). exists t. split; [apply key_key, R|]. destruct t as [| |[]]; try reflexivity; congruence. Qed.
Lemma index_none cont ik k y : cont CKGraph = false -> index_item io fin rnd o c cont ik k None y = Ok (Some y).
Proof. intros G. unfold index_item. rewrite G. reflexivity. Qed.
(** A member under the key for [@none]. *)
Lemma member_none key k j y : has_container (prop_def c (Some key)) CKLanguage = false -> kkey rel co c KNone = Ok k -> expands (Some key) j y -> member key k j y.
Proof.
  intros L K X. exists (Some (TmKw KNone)). split; [apply none_key, K|]. rewrite L. exists y. split; [exact X|]. apply index_none, no_graph.
Qed.
(** An object without one of its keys. *)
Lemma assoc_unread_notin k es : ~ In k (keys (unread es)) -> get_unique k (unread es) = Ok None.
Proof. intros I. apply get_all_nil in I. unfold get_unique. rewrite I. reflexivity. Qed.
Lemma remove_unread_notin k es : ~ In k (keys (unread es)) -> remove_key k (unread es) = unread es.
Proof. apply remove_key_notin. Qed.
Lemma unread_notin k t es : rd k t -> Forall good es -> Forall (fun e => snd (fst e) <> t) es -> ~ In k (keys (unread es)).
Proof.
  intros R G T I. destruct (good_keys _ _ G I) as (e & Ie & Re). apply (proj1 (Forall_forall _ _) T _ Ie). exact (rd_fun _ _ _ Re R).
Qed.
Lemma get_unread_middle k t v a b : ~ In k (keys (unread a)) -> ~ In k (keys (unread b)) ->
  get_unique k (unread (a ++ (k, t, v) :: b)) = Ok (Some v) /\ remove_key k (unread (a ++ (k, t, v) :: b)) = unread (a ++ b).
Proof.
  intros A B. rewrite !unread_app. change (unread ((k, t, v) :: b)) with ((k, v) :: unread b). split.
  - rewrite get_unique_app by exact A. unfold get_unique. assert (E : get_all k ((k, v) :: unread b) = v :: get_all k (unread b)) by (unfold get_all; cbn [filter fst]; rewrite streq_refl; reflexivity).
    apply get_all_nil in B. rewrite E, B. reflexivity.
  - rewrite remove_key_app by exact A. f_equal. unfold remove_key. cbn [filter fst]. rewrite streq_refl. cbn [negb]. exact (remove_unread_notin k b B).
Qed.
Lemma mapped_name key : mapped key = true -> key <> "@type".
Proof. unfold mapped. intros M ->. unfold container_of in M. rewrite streq_refl in M. destruct (ac_type c); discriminate M. Qed.
Lemma listed_name key : c_contains (container_of c key) CKList = true -> key <> "@type".
Proof. intros M ->. unfold container_of in M. rewrite streq_refl in M. destruct (ac_type c); discriminate M. Qed.
Lemma mapped_unlist key : mapped key = true -> c_contains (container_of c key) CKList = false.
Proof. unfold mapped. destruct (container_of c key); intros M; try discriminate M; reflexivity. Qed.
Lemma same_unshift t n n' : same_node n n' -> same_node (unshift_type t n) (unshift_type t n').
Proof.
  intros S. inversion S as [? ts ts' ? ? ? ? ? ? ? ? B1 B2 B3 B4 B5]; subst. cbn [unshift_type]. constructor; try assumption. constructor.
  inversion B1 as [|? ? R]; subst; cbn [opt_list]; [apply (Reordered _ _ _ [t]); [apply Permutation_refl|repeat constructor]|].
  destruct R as [m' P F]. apply (Reordered _ _ _ (t :: m')); [constructor; exact P|constructor; [reflexivity|exact F]].
Qed.
Lemma put_back_types k l x j : l <> [] -> Forall (fun j => is_array j = false) l -> ~ In k (keys x) -> put_back k l (JObj x) = Ok j ->
  exists w, j = JObj (x ++ [(k, w)]) /\ force_array w = l.
Proof.
  intros NE A I H. unfold put_back in H. destruct l as [|j0 l0]; [congruence|]. remember (j0 :: l0) as l eqn:L. clear L j0 l0.
  match type of H with bind ?r _ = _ => destruct r as [m'|] eqn:E end; cbn [bind] in H; [|discriminate]. injection H as <-.
  assert (F : forall l mp m', fold_r (fun x v => kadd x k v false) (x ++ mp) l = Ok m' -> exists mp', m' = x ++ mp' /\ fold_r (fun x v => kadd x k v false) mp l = Ok mp').
  { clear -I. induction l as [|j l IH]; intros mp m' H; cbn [fold_r] in H; [injection H as <-; exists mp; auto|].
    destruct (kadd (x ++ mp) k j false) as [m1|] eqn:K; cbn [bind] in H; [|discriminate]. apply kadd_app in K; [|exact I]. destruct K as (mp1 & -> & K). apply IH in H.
    destruct H as (mp' & -> & H). exists mp'. split; [reflexivity|]. cbn [fold_r]. rewrite K. exact H. }
  rewrite <- (app_nil_r x) in E. apply F in E. destruct E as (mp & -> & E). clear F I.
  assert (F : forall l m0 cs mp, Forall (fun j => is_array j = false) l -> built m0 cs -> complete m0 cs -> fold_r (fun x v => kadd x k v false) m0 l = Ok mp ->
    built mp (cs ++ map (fun j => (k, [j])) l) /\ complete mp (cs ++ map (fun j => (k, [j])) l)).
  { clear. induction l as [|j l IH]; intros m0 cs mp A B C H; cbn [fold_r] in H; [injection H as <-; cbn [map]; rewrite app_nil_r; auto|].
    inversion A as [|? ? A1 A2]; subst. destruct (kadd m0 k j false) as [m1|] eqn:K; cbn [bind] in H; [|discriminate].
    pose proof (built_add _ _ _ _ _ _ B K) as B1. pose proof (complete_add _ _ _ _ _ _ (bt_once _ _ B) C K) as C1. rewrite (leaves_single _ A1) in B1, C1.
    assert (NN : [j] <> []) by congruence. specialize (C1 (or_introl NN)). cbn [map]. change ((k, [j]) :: map (fun j => (k, [j])) l) with ([(k, [j])] ++ map (fun j => (k, [j])) l). rewrite app_assoc. apply (IH _ _ _ A2 B1 C1 H). }
  destruct (F l [] [] mp A built_nil complete_nil E) as [B C]. cbn [app] in B, C.
  destruct (built_single mp k _ B C) as (w & -> & W).
  - destruct l; [congruence|discriminate].
  - intros e Ie. apply in_map_iff in Ie. destruct Ie as (y & <- & _). reflexivity.
  - exists w. split; [reflexivity|]. rewrite W. clear. induction l as [|j l IH]; [reflexivity|]. cbn [map flat_map snd app]. rewrite IH. reflexivity.
Qed.
(** A node, when it is not already a mere identifier. *)
Lemma own_expands key mi mt es ix i ts g inc ps rs : Some key <> Some "@reverse" -> free_floating (Some key) = false \/ n_empty (MkNode i ts g inc ps rs) = false ->
  id_entry i mi -> types_entry ts mt -> Forall good es -> Forall (fun e : xentry => rest_term (snd (fst e))) es ->
  (forall i ts, steps (Some key) (state None None None [] None i ts) es (state ix g inc ps rs i ts)) ->
  expands (Some key) (JObj (unread (mi ++ es ++ mt))) (ix, ONode (MkNode i ts g inc ps rs)) /\
  expands (Some key) (JObj (unread (mi ++ mt ++ es))) (ix, ONode (MkNode i ts g inc ps rs)).
Proof.
  intros NR FF Hi Ht G T St.
  assert (E : free_floating (Some key) && n_empty (MkNode i ts g inc ps rs) && negb (is_some ix) = false) by (destruct FF as [->| ->]; [reflexivity|rewrite andb_false_r; reflexivity]).
  split; apply expands_node; try exact E.
  - apply Forall_app. split; [apply (id_good _ _ Hi)|]. apply Forall_app. split; [exact G|apply (types_good_entry _ _ Ht)].
  - apply Forall_app. split; [apply (id_node _ _ Hi)|]. apply Forall_app. split; [apply rest_node, T|apply (types_node _ _ Ht)].
  - eapply steps_app; [apply (id_steps _ _ _ None None None [] None None NR Hi)|]. eapply steps_app; [apply St|]. apply (types_steps _ _ _ ix g inc ps rs _ NR Ht).
  - apply Forall_app. split; [apply (id_good _ _ Hi)|]. apply Forall_app. split; [apply (types_good_entry _ _ Ht)|exact G].
  - apply Forall_app. split; [apply (id_node _ _ Hi)|]. apply Forall_app. split; [apply (types_node _ _ Ht)|apply rest_node, T].
  - eapply steps_app; [apply (id_steps _ _ _ None None None [] None None NR Hi)|]. eapply steps_app; [apply (types_steps _ _ _ None None None [] None _ NR Ht)|]. apply St.
Qed.
Lemma steps_nil_inv ap s s' : steps ap s [] s' -> s = s'.
Proof. intros [N H]. specialize (H N (le_n _) (fun _ _ s => Ok s)). cbn in H. congruence. Qed.
Lemma mere_match {A} (j : json) (a b : A) : (exists v, j = JObj [("@id", v)]) \/ match j with JObj [("@id", _)] => a | _ => b end = b.
Proof.
  destruct j as [| | | | |[|[k v] l]]; try (right; reflexivity).
  destruct (string_dec k "@id") as [->|N]; [destruct l; [left; eauto|right; reflexivity]|right].
  destruct k as [|[[] [] [] [] [] [] [] []] k]; try reflexivity.
  destruct k as [|[[] [] [] [] [] [] [] []] k]; try reflexivity.
  destruct k as [|[[] [] [] [] [] [] [] []] k]; try reflexivity.
  destruct k; [congruence|reflexivity].
Qed.
Lemma kid_reads : rd "@id" (TmKw KId).
Proof. apply (kw_rd KId). discriminate. Qed.
Lemma same_i_of (ix : option string) n n' : same_node n n' -> same_i (ix, ONode n) (ix, ONode n').
Proof. intros S. split; [reflexivity|constructor; exact S]. Qed.
(** A node of a type map, without its first type. *)
Lemma type_member key x n mi mt es g inc ps rs j1 j2 j' ts : unlowered (Some key) -> kept x -> snd x = ONode n -> Some key <> Some "@reverse" -> free_floating (Some key) = false ->
  j1 = JObj (unread (mi ++ mt ++ es)) \/ j1 = JObj (unread (mi ++ es ++ mt)) ->
  id_entry (n_id n) mi -> types_entry ts mt -> Forall good es -> Forall (fun e : xentry => rest_term (snd (fst e))) es ->
  (forall i ts, steps (Some key) (state None None None [] None i ts) es (state (fst x) g inc ps rs i ts)) ->
  (forall i ts, same_node (MkNode i ts (n_graph n) (n_included n) (n_props n) (n_reverse n)) (MkNode i ts g inc ps rs)) ->
  j2 = match o_id (snd x) with Some i => rec None (ONode (node_new (Some i))) c c (Some key) | None => Err KePanic end ->
  match j1 with JObj [("@id", _)] => j2 | _ => Ok j1 end = Ok j' ->
  exists y, same_i (fst x, ONode (MkNode (n_id n) ts (n_graph n) (n_included n) (n_props n) (n_reverse n))) y /\ expands (Some key) j' y.
Proof.
  intros UW K En NR FF J Hi Ht G T St S J2 H. destruct x as [ix x]. cbn [fst snd] in *. subst x.
  destruct (mere_match j1 j2 (Ok j1)) as [[v E]|E].
  - rewrite E in H. assert (X : exists a e, mi = [e] /\ mt = [] /\ es = [] /\ n_id n = Some a).
    { assert (Y : exists es', unread es' = [("@id", v)] /\ Permutation es' (mi ++ mt ++ es)).
      { destruct J as [J|J]; rewrite J in E; injection E as E; [exists (mi ++ mt ++ es)|exists (mi ++ es ++ mt)]; (split; [exact E|]); [apply Permutation_refl|apply Permutation_app_head, Permutation_app_comm]. }
      destruct Y as (es' & U & Pm). destruct es' as [|[[k t] w] [|? ?]]; try discriminate U. cbn in U. injection U as -> ->. apply Permutation_length_1_inv in Pm.
      pose proof kid_reads as RI.
      destruct mi as [|e mi].
      - exfalso. destruct mt as [|e mt].
        + cbn [app] in Pm. subst es. inversion G as [|? ? Ge _]; subst. inversion T as [|? ? (_ & T1 & _) _]; subst. unfold good in Ge. cbn [fst snd] in *. apply T1. exact (rd_fun _ _ _ Ge RI).
        + injection Pm as -> _. apply types_good_entry in Ht. destruct Ht as [Ge Te]. inversion Ge as [|? ? G1 _]; subst. inversion Te as [|? ? T1 _]; subst. unfold good in G1. cbn [fst snd] in *.
          pose proof (rd_fun _ _ _ G1 RI). congruence.
      - destruct Hi as [[_ X]|(a & k & s & Ei & X & _)]; [discriminate X|]. injection X as -> ->. cbn [app] in Pm. assert (Y : mt ++ es = []) by (destruct (mt ++ es); [reflexivity|discriminate Pm]). apply app_eq_nil in Y. destruct Y as [-> ->]. eauto 8. }
    destruct X as (a & e & -> & -> & -> & Ei). destruct Ht as [[-> _]|(? & ? & ? & _ & _ & X & _)]; [|discriminate X].
    specialize (St None None). apply steps_nil_inv in St. unfold state in St. injection St as <- <- <- <- <-.
    cbn [o_id] in J2. rewrite Ei in J2. rewrite J2 in H. specialize (S (n_id n) None). rewrite Ei in *.
    assert (KK : kept (None, ONode (node_new (Some a)))).
    { constructor. inversion K as [|? ? K1|]; subst. inversion K1 as [? ? ? ? ? ? ? K2]; subst. cbn [n_id] in Ei. subst.
      apply KtMk; cbn [opt_list]; try discriminate; try (constructor; fail); try congruence.
      - exact K2.
      - intros X. destruct X. reflexivity.
      - intros _ _. left. reflexivity. }
    assert (WW : wf (ONode (node_new (Some a)))) by (repeat constructor).
    assert (PP : place (Some key) (Some key) (snd (None : option string, ONode (node_new (Some a))))) by (split; [exact NR|]; intros _; split; [exact FF|reflexivity]).
    destruct (rec_expands (None, ONode (node_new (Some a))) _ _ _ KK WW PP H) as (y & [Sy1 Sy2] & Y). rewrite (lowered_same _ _ UW) in Sy1. exists y. split; [|exact Y].
    split; [exact Sy1|]. eapply (proj1 same_trans_both); [constructor; exact S|exact Sy2].
  - assert (j' = j1) as -> by congruence. exists (ix, ONode (MkNode (n_id n) ts g inc ps rs)). split; [apply same_i_of, S|].
    destruct (own_expands key mi mt es ix (n_id n) ts g inc ps rs NR (or_introl FF) Hi Ht G T St) as [X1 X2]. destruct J as [->| ->]; assumption.
Qed.
Lemma map_member key x j k j' : mapped key = true -> kept x -> wf (snd x) -> fits Some key x -> rec (fst x) (snd x) c c (Some key) = Ok j ->
  map_entry rel co rec (container_of c key) key x j c = Ok (k, j') -> exists x', same_i x x' /\ member key k j' x' /\ is_array j' = false.
Proof.
  intros M K W FT R H. pose proof (mapped_name _ M) as NT. pose proof (mapped_unlist _ M) as UL. pose proof (key_unlist _ UL) as UL'.
  destruct (ft_map _ _ _ FT M) as [NL NG]. pose proof (ft_place _ _ _ FT) as P. assert (P' : place (Some key) (Some key) (snd x)) by (destruct (snd x); [exact P|exact P|discriminate NL]). clear P.
  assert (FB : flatb key = false) by (unfold flatb; rewrite M; reflexivity). destruct (ft_own _ _ _ FT FB) as (_ & NGr & NRv).
  assert (NR : Some key <> Some "@reverse") by congruence. assert (FF : free_floating (Some key) = false) by (unfold free_floating, ap_is; destruct (streq_spec key (kw_str KGraph)) as [->|_]; [destruct NGr|]; reflexivity).
  assert (HC : forall ck, has_container (prop_def c (Some key)) ck = c_contains (container_of c key) ck) by (intros ck; symmetry; apply container_key, NT).
  unfold map_entry in H. rewrite no_index_key in H. unfold member. rewrite HC.
  destruct (c_contains (container_of c key) CKLanguage) eqn:CL.
  - destruct (ft_language _ _ _ FT CL) as (E1 & v & s & E2 & Ev & Sv & Rl). destruct x as [ix x]. cbn [fst snd] in *. subst ix x. cbn [is_value andb bind] in H. rewrite Ev in H.
    destruct (v_language v) as [l|] eqn:VL; cbn [bind] in H.
    + injection H as <- <-. exists (None, OVal v). split; [split; [reflexivity|apply (proj1 same_refl_both)]|]. split; [|reflexivity].
      destruct (read_ok l false) as [t Rt]. exists t. split; [apply key_key, Rt|]. exists s. split; [reflexivity|].
      assert (X : match t with Some (TmKw KNone) => None | _ => Some l end = Some l) by (specialize (Rl l eq_refl); rewrite Rt in Rl; destruct t as [[| |[]]|]; try reflexivity; congruence).
      rewrite X, Sv. reflexivity.
    + destruct (kkey rel co c KNone) as [kn|] eqn:KN; cbn [bind] in H; [|discriminate]. injection H as <- <-. exists (None, OVal v). split; [split; [reflexivity|apply (proj1 same_refl_both)]|]. split; [|reflexivity].
      exists (Some (TmKw KNone)). split; [apply none_key, KN|]. exists s. split; [reflexivity|]. rewrite Sv. reflexivity.
  - cbn [andb] in H. destruct (c_contains (container_of c key) CKIndex) eqn:CI.
    + destruct (rec_expands _ _ _ _ K W P' R) as (y & Sy & Y). unfold lowered in Sy. cbn [container_ap] in Sy. rewrite CI in Sy.
      cbn [bind] in H. destruct y as [iy y]. destruct Sy as [E Sy]. cbn [fst snd] in E, Sy. subst iy. destruct x as [ix x]. cbn [fst snd] in *.
      assert (AJ : is_array j = false) by (eapply expands_single; eassumption).
      destruct ix as [i|]; cbn [bind] in H.
      * injection H as <- <-. destruct (map_key_key _ (ft_index _ _ _ FT CI i eq_refl)) as (t & Rt & U). exists (Some i, y). split; [split; [reflexivity|exact Sy]|]. split; [|exact AJ].
        exists (Some t). split; [exact Rt|]. exists (None, y). split; [exact Y|]. rewrite U. unfold index_item. rewrite !HC, no_graph_key, CI. cbn [andb fst snd is_some negb]. rewrite streq_refl. reflexivity.
      * destruct (kkey rel co c KNone) as [kn|] eqn:KN; cbn [bind] in H; [|discriminate]. injection H as <- <-. exists (None, y). split; [split; [reflexivity|exact Sy]|]. split; [|exact AJ].
        pose proof (member_none key kn j (None, y)) as MN. unfold member in MN. rewrite HC, CL in MN. apply MN; [reflexivity|exact KN|exact Y].
    + assert (UW : unlowered (Some key)) by exact CI. 
      assert (MN : forall j y, kkey rel co c KNone = Ok k -> same_i x y -> expands (Some key) j y -> exists x', same_i x x' /\
        (exists t, xkey io o c k = Ok t /\ exists y, expands (Some key) j y /\ index_item io fin rnd o c (has_container (prop_def c (Some key))) "@index" k (unnone t) y = Ok (Some x')) /\ is_array j = false).
      { intros j0 y KN Sy Y. exists y. split; [exact Sy|]. split; [|eapply expands_single; eassumption]. pose proof (member_none key k j0 y) as MN. unfold member in MN. rewrite HC, CL in MN. apply MN; [reflexivity|exact KN|exact Y]. }
      pose proof (HR _ _ _ _ K W P' R) as B. destruct (back_expands _ _ _ _ P' B) as (y & Sy & Y). rewrite (lowered_same _ _ UW) in Sy.
      assert (Sy' : same_i x y) by (destruct x; exact Sy). clear Sy.
      destruct (c_contains (container_of c key) CKId) eqn:CD.
      * destruct (ft_id _ _ _ FT CD) as (n & En & Mi). unfold back in B. rewrite En in B.
        destruct B as [(i & s & _ & _ & -> & X)|(mi & mt & es & g & inc & ps & rs & -> & Hi & Ht & G & T & St & S)]; destruct (kkey rel co c KId) as [ck|] eqn:CK; cbn [bind] in H; try discriminate.
        { destruct (kkey rel co c KNone) as [kn|] eqn:KN; cbn [bind] in H; [|discriminate]. injection H as <- <-. eapply MN; [reflexivity|exact Sy'|exact Y]. }
        pose proof (key_reads KId ck ltac:(discriminate) CK) as RK.
        assert (I1 : ~ In ck (keys (unread (mt ++ es)))).
        { eapply unread_notin; [exact RK| |].
          - apply Forall_app. split; [apply (types_good_entry _ _ Ht)|exact G].
          - apply Forall_app. split; [eapply Forall_impl; [|apply (types_good_entry _ _ Ht)]; intros e ->; discriminate|]. eapply Forall_impl; [|exact T]. intros e (_ & E & _). exact E. }
        destruct Hi as [[Ei ->]|(a & k1 & s & Ei & -> & CK1 & Rs)].
        { cbn [app] in H. unfold kget in H. rewrite (assoc_unread_notin _ _ I1) in H. cbn [bind] in H.
          destruct (kkey rel co c KNone) as [kn|] eqn:KN; cbn [bind] in H; [|discriminate]. injection H as <- <-. eapply MN; [reflexivity|exact Sy'|exact Y]. }
        assert (k1 = ck) as -> by congruence. destruct (get_unread_middle ck (TmKw KId) (JStr s) [] (mt ++ es)) as [E1 E2]; [intros []|exact I1|]. cbn [app] in E1, E2.
        unfold kget in H. cbn [app] in H. unfold xentry in *. rewrite E1 in H. cbn [bind as_str] in H. rewrite E2 in H. injection H as <- <-.
        destruct (map_key_key _ (Mi _ Ei _ Rs)) as (t & Rt & U). rewrite (lowered_same _ _ UW) in St.
        exists (fst x, ONode (MkNode (Some a) (n_types n) g inc ps rs)). split.
        { destruct x as [ix x]. cbn [fst snd] in *. subst x. apply same_i_of. specialize (S (n_id n) (n_types n)). rewrite node_eta, Ei in S. exact S. }
        assert (X : expands (Some key) (JObj (unread (mt ++ es))) (fst x, ONode (MkNode None (n_types n) g inc ps rs))).
        { apply (own_expands key [] mt es (fst x) None); try assumption; left; auto. }
        split; [|eapply expands_single; eassumption]. exists (Some t). split; [exact Rt|]. exists (fst x, ONode (MkNode None (n_types n) g inc ps rs)). split; [exact X|].
        rewrite U. unfold index_item. rewrite !HC, no_graph_key, CI, CD. cbn [andb fst snd is_some negb o_id n_id]. unfold xiri. rewrite Rs. cbn [map_err bind node_id_of_term set_nid]. reflexivity.
      * assert (CT : c_contains (container_of c key) CKType = true) by (unfold mapped in M; rewrite CL, CI, CD in M; exact M).
        destruct (ft_type _ _ _ FT CT) as (n & En). unfold back in B. rewrite En in B.
        destruct (kkey rel co c KType) as [ck|] eqn:CK; cbn [bind] in H; [|discriminate].
        destruct B as [(i & s & _ & _ & -> & X)|(mi & mt & es & g & inc & ps & rs & -> & Hi & Ht & G & T & St & S)].
        { cbn [take_first bind put_back] in H. destruct (kkey rel co c KNone) as [kn|] eqn:KN; cbn [bind] in H; [|discriminate]. injection H as <- <-. eapply MN; [reflexivity|exact Sy'|exact Y]. }
        pose proof (key_reads KType ck ltac:(discriminate) CK) as RK. rewrite (lowered_same _ _ UW) in St.
        assert (I0 : ~ In ck (keys (unread mi))).
        { eapply unread_notin; [exact RK|apply (id_good _ _ Hi)|]. eapply Forall_impl; [|apply (id_good _ _ Hi)]. intros e ->. discriminate. }
        assert (I1 : ~ In ck (keys (unread es))).
        { eapply unread_notin; [exact RK|exact G|]. eapply Forall_impl; [|exact T]. intros e (_ & _ & E). exact E. }
        assert (I2 : ~ In ck (keys (unread (mi ++ es)))) by (rewrite unread_app; unfold keys; rewrite map_app; intros I; apply in_app_or in I; destruct I; [apply I0|apply I1]; assumption).
        assert (TM := fun j1 j2 j' mt' ts' Q1 Q2 => type_member key x n mi mt' es g inc ps rs j1 j2 j' ts' UW K En NR FF Q1 Hi Q2 G T St S).
        unfold take_first, kget in H.
        destruct Ht as [[Et ->]|(l & k1 & w & Et & NE & -> & CK1 & Ft)].
        { cbn [app] in H. rewrite (assoc_unread_notin _ _ I2) in H. cbn [bind put_back] in H.
          match type of H with bind (bind ?r _) _ = _ => destruct r as [j1|] eqn:Q end; cbn [bind] in H; [|discriminate].
          destruct (kkey rel co c KNone) as [kn|] eqn:KN; cbn [bind] in H; [|discriminate]. injection H as <- <-.
          destruct (TM _ _ _ [] None (or_introl eq_refl) (or_introl (conj eq_refl eq_refl)) eq_refl Q) as (y1 & S1 & Y1).
          eapply MN; [reflexivity| |exact Y1]. rewrite <- Et, node_eta, <- En in S1. destruct x; exact S1. }
        assert (k1 = ck) as -> by congruence. destruct (get_unread_middle ck (TmKw KType) w mi es I0 I1) as [E1 E2]. cbn [app] in H. unfold xentry in *. rewrite E1 in H. cbn [bind] in H. rewrite E2 in H.
        destruct l as [|t ts]; [congruence|]. assert (X : exists j0 js, force_array w = j0 :: js /\ type_read t j0 /\ Forall2 type_read ts js) by (inversion Ft; subst; eauto). destruct X as (j0 & js & Eq & (Kt & s & -> & Rt) & Ft').
        assert (W' : exists st, match w with JStr s => (Some s, [], JObj (unread (mi ++ es))) | JArr (v :: l) => (as_str v, l, JObj (unread (mi ++ es))) | JArr [] => (None, [], JObj (unread (mi ++ es))) | v => (None, [v], JObj (unread (mi ++ es))) end = st /\ st = (Some s, js, JObj (unread (mi ++ es)))).
        { eexists. split; [reflexivity|]. destruct w as [| | | |[|]|]; cbn [force_array] in Eq; try discriminate Eq; injection Eq as -> <-; reflexivity || (injection Eq as -> ->; reflexivity). }
        destruct W' as (st & W1 & ->). rewrite W1 in H. clear W1. cbn [bind] in H.
        match type of H with bind (bind ?r _) _ = _ => destruct r as [j1|] eqn:PB end; cbn [bind] in H; [|discriminate].
        match type of H with bind (bind ?r _) _ = _ => destruct r as [j2|] eqn:Q end; cbn [bind] in H; [|discriminate]. injection H as <- <-.
        assert (X : exists mt' ts', (j1 = JObj (unread (mi ++ mt' ++ es)) \/ j1 = JObj (unread (mi ++ es ++ mt'))) /\ types_entry ts' mt' /\ opt_list ts' = ts).
        { destruct js as [|j0 js0].
          - inversion Ft'; subst. cbn [put_back] in PB. injection PB as <-. exists [], None. split; [left; reflexivity|]. split; [left; auto|reflexivity].
          - remember (j0 :: js0) as js eqn:Ej. apply put_back_types in PB; [| |clear -Ft'; induction Ft' as [|? ? ? ? (_ & s & -> & _) F IH]; constructor; [reflexivity|exact IH]|exact I2]; [|subst; discriminate].
            destruct PB as (w' & -> & Ew). exists [(ck, TmKw KType, w')], (Some ts). split; [right; rewrite app_assoc, (unread_app (mi ++ es)); reflexivity|]. split; [|reflexivity].
            right. exists ts, ck, w'. rewrite Ew. split; [reflexivity|]. split; [|auto]. intros ->. inversion Ft'; subst. discriminate. }
        destruct X as (mt' & ts' & J1 & Ht' & Ets).
        destruct (TM _ _ _ mt' ts' J1 Ht' eq_refl Q) as ([iy y1] & [S0 S1] & Y1). cbn [fst snd] in S0, S1. inversion S1 as [|? n1 S2|]; subst.
        exists (fst x, ONode (unshift_type t n1)). split.
        { destruct x as [ix x]. cbn [fst snd] in *. subst x. apply same_i_of. apply (same_unshift t) in S2. cbn [unshift_type] in S2. rewrite <- Et, node_eta in S2. exact S2. }
        split; [|eapply expands_single; eassumption]. exists (Some (TmId t)). split; [apply key_key, Rt|]. exists (fst x, ONode n1). split; [exact Y1|].
        unfold index_item. cbn [unnone]. rewrite !HC, no_graph_key, CI, CD, CT. cbn [andb fst snd id_of_term]. reflexivity.
Qed.

(** **** Properties *)
(** [xs] is what the value [v] of [key] means. *)
Inductive held (F : string -> option string) (key : string) : json -> list iobj -> Prop :=
| HdFlat v xs : flatb key = true -> Forall2 (expands (F key)) (force_array v) xs -> held F key v xs
| HdNone : mapped key = true -> F key = Some key -> held F key (JArr []) []
| HdMap y xs : mapped key = true -> F key = Some key -> grouped (fun k w ys => Forall2 (member key k) (force_array w) ys) y xs -> held F key (JObj y) xs
| HdList js ys : c_contains (container_of c key) CKList = true -> F key = Some key -> Forall2 (expands (Some key)) js ys -> held F key (JArr js) [(None, OList ys)].
Lemma fits_own F key x : F key = Some key -> fits F key x -> fits Some key x.
Proof. intros E [P U W L M I D T G]. rewrite E in *. split; assumption. Qed.
Lemma flat_or key : flatb key = true \/ c_contains (container_of c key) CKList = true \/ mapped key = true.
Proof. unfold flatb. destruct (mapped key); [auto|]. destruct (c_contains _ CKList); auto. Qed.
Lemma listed_flat key : c_contains (container_of c key) CKList = true -> flatb key = false /\ mapped key = false /\ unlowered (Some key).
Proof. unfold flatb, mapped, unlowered. cbn [container_ap]. destruct (container_of c key); intros L; try discriminate L; repeat split; reflexivity. Qed.
Lemma mapped_flat key : mapped key = true -> flatb key = false.
Proof. unfold flatb. intros ->. reflexivity. Qed.
Lemma nest_none m key f : with_nest m c key f = f m.
Proof. unfold with_nest. pose proof (no_nest key) as N. destruct (prop_def c (Some key)) as [d|]; [rewrite N|]; reflexivity. Qed.
Lemma expands_array ap js x : expands ap (JArr js) x -> is_list (snd x) = true.
Proof.
  intros [N H]. specialize (H (S N) (le_S _ _ (le_n _)) false). cbn [expand_element element_body] in H.
  match type of H with bind ?r _ = _ => destruct r as [ys|] end; cbn [bind] in H; [|discriminate].
  destruct (has_container (prop_def c ap) CKList); [|discriminate H]. injection H as <-. reflexivity.
Qed.
Lemma same_is_list x y : same x y -> is_list x = is_list y.
Proof. destruct 1; reflexivity. Qed.
Lemma keys_more {A} (m m' : list (string * A)) k v : (forall k', k' <> k -> assoc k' m' = assoc k' m) -> assoc k m' = Some v -> forall k', In k' (keys m') <-> k' = k \/ In k' (keys m).
Proof.
  intros O E k'. unfold keys. rewrite !in_keys_assoc. destruct (string_dec k' k) as [->|N]; [split; eauto|]. rewrite (O _ N). split; [auto|]. intros [X|X]; [contradiction|exact X].
Qed.
Lemma item_step F t r m0 mp x m' xs key : kiri_with rel co c t x r = Ok (Some key) -> ~ In key (keys m0) -> kept x -> wf (snd x) -> fits F key x ->
  (c_contains (container_of c key) CKList = true -> ~ In key (keys mp)) -> grouped (held F) mp xs -> compact_item rel co rec t c r (m0 ++ mp) x = Ok m' ->
  exists mp' x', m' = m0 ++ mp' /\ same_i x x' /\ grouped (held F) mp' (xs ++ [x']) /\ forall k, In k (keys mp') <-> k = key \/ In k (keys mp).
Proof.
  intros C N0 K W FT FR GR H. assert (ND : NoDup (keys mp)) by (destruct GR as (f & X & _); exact X).
  destruct (flat_or key) as [FB|[CL|M]].
  - destruct (item_add_at _ _ _ _ _ _ _ _ _ _ C (flatb_key _ FB) H) as (j & V & A). apply kadd_app in A; [|exact N0]. destruct A as (mp' & -> & A).
    destruct (item_trip key x j (F key) FB (ft_unlist _ _ _ FT FB) K W (ft_place _ _ _ FT) V) as (x' & AJ & S & X). destruct (kadd_one _ _ _ _ _ ND AJ A) as (ND' & O & v' & E & FA).
    exists mp', x'. split; [reflexivity|]. split; [exact S|]. split; [|eapply keys_more; eassumption].
    eapply grouped_more; [exact GR|exact ND'|exact O|]. intros ys Y1 Y2. exists v'. split; [exact E|]. apply HdFlat; [exact FB|]. rewrite FA.
    apply Forall2_app; [|constructor; [exact X|constructor]]. destruct (assoc key mp) as [v|]; [|rewrite (Y2 eq_refl); constructor].
    specialize (Y1 _ eq_refl). destruct Y1 as [v ys _ Y|M _|y ys M _ _|js ys CL _ _].
    + exact Y.
    + rewrite (mapped_flat _ M) in FB. discriminate.
    + rewrite (mapped_flat _ M) in FB. discriminate.
    + destruct (listed_flat _ CL) as (X1 & _). congruence.
  - destruct (listed_flat _ CL) as (FB & NM & UW). destruct (ft_own _ _ _ FT FB) as (EF & NG & NR). destruct (ft_list _ _ _ FT CL) as (l & ->). pose proof (ft_place _ _ _ FT) as P. cbn [snd item_place] in P. destruct P as (_ & _ & P).
    unfold compact_item in H. rewrite C in H. cbn [bind] in H. rewrite nest_none in H. cbn [fst snd] in H. unfold compact_property_list in H.
    destruct (compact_collection co rec l c c (Some key)) as [j|] eqn:CC; cbn [bind] in H; [|discriminate]. rewrite CL in H. cbn [negb] in H. injection H as <-.
    apply collection_array in CC. destruct CC as (js & Mj & J). cbn zeta in J. inversion K as [| |? ? Kl]; subst. inversion W as [| |? Wl]; subst.
    destruct (list_content key l js UW Kl Wl P Mj) as (ys & S & X & E). rewrite E in J.
    assert (EJ : match j with JArr _ => j | _ => JArr [j] end = JArr js).
    { destruct J as [->|(v & -> & ->)]; [reflexivity|]. inversion X as [|? y ? ? Xy Xr]; subst. inversion Xr; subst. inversion S as [|x0 ? ? ? [_ Sx] Sr]; subst. inversion Kl as [|? ? [_ NL] _]; subst.
      destruct v; try reflexivity. apply expands_array in Xy. apply same_is_list in Sx. congruence. }
    rewrite EJ. rewrite insert_app by exact N0. destruct (insert_one key (JArr js) mp ND) as (ND' & O & Ek).
    exists (insert key (JArr js) mp), (None, OList ys). split; [reflexivity|]. split; [split; [reflexivity|constructor; exact S]|]. split; [|eapply keys_more; eassumption].
    eapply grouped_more; [exact GR|exact ND'|exact O|]. intros zs Y1 Y2. exists (JArr js). split; [exact Ek|].
    assert (zs = []) as ->. { apply Y2. destruct (assoc key mp) eqn:Ea; [|reflexivity]. destruct (FR CL). apply in_keys_assoc. eauto. }
    apply HdList; assumption.
  - pose proof (mapped_flat _ M) as FB. destruct (ft_own _ _ _ FT FB) as (EF & _). destruct (ft_map _ _ _ FT M) as (NL & NG).
    assert (H' : compact_plain rel co rec x (m0 ++ mp) (container_of c key) (as_array_for co c key) key c = Ok m').
    { unfold compact_item in H. rewrite C in H. cbn [bind] in H. rewrite nest_none in H. destruct (snd x) as [v|n|l] eqn:Ex; [exact H| |discriminate NL].
      destruct (is_graph n) eqn:G; [|exact H]. destruct NG. apply (a_graph_spec (ONode n)), G. }
    clear H. unfold compact_plain in H'. destruct (rec (fst x) (snd x) c c (Some key)) as [j|] eqn:R; cbn [bind] in H'; [|discriminate].
    unfold mapped in M. rewrite no_graph_key, M in H'. cbn [negb andb] in H'. fold (mapped key) in M.
    apply in_map_app in H'; [|exact N0]. destruct H' as (mp' & -> & H). apply in_map_one in H; [|exact ND]. destruct H as (y & y' & Y & H & ->).
    destruct (map_entry rel co rec (container_of c key) key x j c) as [[k j']|] eqn:ME; cbn [bind] in H; [|discriminate].
    destruct (map_member key x j k j' M K W (fits_own _ _ _ EF FT) R ME) as (x' & S & MB & AJ).
    destruct (insert_one key (JObj y') mp ND) as (ND' & O & Ek).
    exists (insert key (JObj y') mp), x'. split; [reflexivity|]. split; [exact S|]. split; [|eapply keys_more; eassumption].
    eapply grouped_more; [exact GR|exact ND'|exact O|]. intros ys Y1 Y2. exists (JObj y'). split; [exact Ek|]. apply HdMap; [exact M|exact EF|].
    assert (GY : grouped (fun k w ys => Forall2 (member key k) (force_array w) ys) y ys).
    { destruct Y as [Y|[Y ->]]; [|rewrite (Y2 Y); apply grouped_nil]. specialize (Y1 _ Y). inversion Y1 as [? ? FB'|? ?|? ? _ _ GY|]; subst; [congruence|exact GY]. }
    assert (NDy : NoDup (keys y)) by (destruct GY as (f & X & _); exact X). destruct (kadd_one _ _ _ _ _ NDy AJ H) as (NDy' & Oy & w & Ew & FA).
    eapply grouped_more; [exact GY|exact NDy'|exact Oy|]. intros zs Z1 Z2. exists w. split; [exact Ew|]. rewrite FA. apply Forall2_app; [|constructor; [exact MB|constructor]].
    destruct (assoc k y) as [v|]; [exact (Z1 _ eq_refl)|rewrite (Z2 eq_refl); constructor].
Qed.
Lemma items_fold F t r m0 l : t <> TmNull -> forall mp xs m', Forall (fun x => kept x /\ wf (snd x)) l ->
  (forall x key, In x l -> kiri_with rel co c t x r = Ok (Some key) -> ~ In key (keys m0) /\ fits F key x /\ (c_contains (container_of c key) CKList = true -> ~ In key (keys mp))) ->
  ForallOrdPairs (fun x y => forall key, kiri_with rel co c t x r = Ok (Some key) -> kiri_with rel co c t y r = Ok (Some key) -> c_contains (container_of c key) CKList = false) l ->
  grouped (held F) mp xs -> fold_r (compact_item rel co rec t c r) (m0 ++ mp) l = Ok m' ->
  exists mp' xs', m' = m0 ++ mp' /\ Forall2 same_i l xs' /\ grouped (held F) mp' (xs ++ xs') /\ (forall k, In k (keys mp) -> In k (keys mp')) /\
    (forall k, In k (keys mp') -> In k (keys mp) \/ exists x, In x l /\ kiri_with rel co c t x r = Ok (Some k)) /\ (l <> [] -> mp' <> []).
Proof.
  intros NT. induction l as [|x l IH]; intros mp xs m' K FT OP GR H; cbn [fold_r] in H.
  - injection H as <-. exists mp, []. rewrite app_nil_r. split; [reflexivity|]. split; [constructor|]. split; [exact GR|]. split; [auto|]. split; [auto|congruence].
  - destruct (compact_item rel co rec t c r (m0 ++ mp) x) as [m1|] eqn:E; cbn [bind] in H; [|discriminate]. inversion K as [|? ? [Kx Wx] K']; subst. inversion OP as [|? ? O1 O2]; subst.
    destruct (kiri_with rel co c t x r) as [[key|]|] eqn:C; [|destruct (kiri_with_some _ _ _ _ _ _ NT C)|unfold compact_item in E; rewrite C in E; discriminate].
    destruct (FT x key (or_introl eq_refl) C) as (N0 & Fx & FR). destruct (item_step F t r m0 mp x m1 xs key C N0 Kx Wx Fx FR GR E) as (mp1 & x' & -> & S & GR1 & KE).
    destruct (IH mp1 (xs ++ [x']) m' K') as (mp' & xs' & -> & Ss & GR' & KI & KO & _); [|exact O2|exact GR1|exact H|].
    { intros y k Iy Cy. destruct (FT y k (or_intror Iy) Cy) as (A1 & A2 & A3). split; [exact A1|]. split; [exact A2|]. intros CL I. apply KE in I. destruct I as [->|I]; [|exact (A3 CL I)].
      pose proof (proj1 (Forall_forall _ _) O1 _ Iy key eq_refl Cy). congruence. }
    rewrite <- app_assoc in GR'. exists mp', (x' :: xs'). split; [reflexivity|]. split; [constructor; assumption|]. split; [exact GR'|]. split; [intros k I; apply KI, KE; auto|]. split.
    + intros k I. destruct (KO k I) as [X|(y & Iy & Cy)]; [|right; exists y; split; [right; exact Iy|exact Cy]]. apply KE in X. destruct X as [->|X]; [right; exists x; split; [left; reflexivity|exact C]|left; exact X].
    + intros _ ->. apply (KI key). apply KE. left. reflexivity.
Qed.
Definition asked (l : list iobj) (x : iobj) : Prop := In x l \/ l = [] /\ x = (None, ONode (node_new None)).
Lemma property_trip F t r l m m' : t <> TmNull -> Forall (fun x => kept x /\ wf (snd x)) l ->
  (forall x key, asked l x -> kiri_with rel co c t x r = Ok (Some key) -> ~ In key (keys m)) ->
  (forall x key, In x l -> kiri_with rel co c t x r = Ok (Some key) -> fits F key x) ->
  (forall key, l = [] -> kiri_with rel co c t (None, ONode (node_new None)) r = Ok (Some key) -> flatb key = false -> c_contains (container_of c key) CKList = false /\ F key = Some key) ->
  ForallOrdPairs (fun x y => forall key, kiri_with rel co c t x r = Ok (Some key) -> kiri_with rel co c t y r = Ok (Some key) -> c_contains (container_of c key) CKList = false) l ->
  compact_property rel co rec t l c r m = Ok m' ->
  exists mp xs, m' = m ++ mp /\ Forall2 same_i l xs /\ grouped (held F) mp xs /\ mp <> [] /\
    forall k, In k (keys mp) -> exists x, asked l x /\ kiri_with rel co c t x r = Ok (Some k).
Proof.
  intros NT K FR FT FE OP H. unfold compact_property in H. rewrite <- (app_nil_r m) in H. destruct l as [|x0 l0].
  - destruct (kiri_with rel co c t (None, ONode (node_new None)) r) as [[k|]|] eqn:C; cbn [bind] in H; try discriminate.
    2:{ destruct (kiri_with_some _ _ _ _ _ _ NT C). }
    rewrite nest_none in H. assert (AS : asked [] (None, ONode (node_new None))) by (right; auto). apply kadd_app in H; [|exact (FR _ _ AS C)]. destruct H as (mp & -> & H).
    pose proof (built_add _ _ _ _ _ _ built_nil H) as B. pose proof (complete_add [] _ _ _ _ _ (NoDup_nil _) complete_nil H (or_intror eq_refl)) as Cm. cbn [app leaves] in *.
    exists mp, []. split; [reflexivity|]. split; [constructor|].
    assert (MP : mp = [(k, JArr [])]). { unfold kadd, add_value in H. cbn in H. congruence. }
    split; [|split; [rewrite MP; discriminate|]].
    + rewrite MP. exists (fun _ => []). split; [repeat constructor; intros []|]. split; [|split; [reflexivity|constructor]].
      intros k' v E. cbn [assoc] in E. match type of E with context [streq ?a ?b] => destruct (streq_spec a b) as [Ek|_] end; [|discriminate]. injection E as <-. subst k'.
      destruct (flatb k) eqn:FB; [apply HdFlat; [exact FB|constructor]|]. destruct (FE k eq_refl eq_refl FB) as [CL EF]. apply HdNone; [|exact EF]. destruct (flat_or k) as [X|[X|X]]; [congruence|congruence|exact X].
    + rewrite MP. intros k' [<-|[]]. eauto.
  - remember (x0 :: l0) as l eqn:L. destruct (items_fold F t r m l NT [] [] m' K) as (mp & xs & -> & S & GR & _ & KO & NE); [|exact OP|apply grouped_nil|exact H|].
    + intros x key Ix Cx. split; [apply (FR x key); [left; exact Ix|exact Cx]|]. split; [eapply FT; eassumption|]. intros _ [].
    + exists mp, xs. split; [reflexivity|]. split; [exact S|]. split; [exact GR|]. split; [apply NE; rewrite L; discriminate|].
      intros k I. destruct (KO k I) as [[]|(x & Ix & Cx)]. exists x. split; [left; exact Ix|exact Cx].
Qed.
(** **** Values of keys *)
Definition property_value (key : string) (v : json) (ys : list iobj) : Prop :=
  ev (fun n => exists x, expand_property io ld fin rnd pf o (XE n) c key v = Ok x /\
    items (wrap_graph fin rnd (prop_def c (Some key)) (wrap_list (prop_def c (Some key)) x)) = ys /\ wrap_graph fin rnd (prop_def c (Some key)) (wrap_list (prop_def c (Some key)) x) <> XNull).
Lemma not_json key : match prop_def c (Some key) with Some d => match nd_typ d with Some TyJson => true | _ => false end | None => false end = false.
Proof. destruct (prop_def c (Some key)) as [d|] eqn:D; [|reflexivity]. pose proof (sd_json _ (prop_simple _ _ D)). destruct (nd_typ d) as [[]|]; congruence. Qed.
Lemma no_wrap key x : wrap_graph fin rnd (prop_def c (Some key)) x = x.
Proof. unfold wrap_graph. rewrite no_graph. reflexivity. Qed.
Lemma sorted_perm (y : jobject) : Permutation y (entries_sorted o y).
Proof. unfold entries_sorted. destruct (xo_ordered o); [apply sort_key_perm|apply Permutation_refl]. Qed.
Lemma flat_keys_of {B} (f : string -> list B) (y y' : jobject) : Permutation y y' -> Permutation (flat_map f (keys y)) (flat_map f (keys y')).
Proof. intros P. apply Permutation_flat_map, Permutation_map, P. Qed.
Lemma flat_r_keys {B E} (f : string -> list B) (g : string * json -> result (list B) E) y : (forall e, In e y -> g e = Ok (f (fst e))) -> flat_r g y = Ok (flat_map f (keys y)).
Proof.
  induction y as [|e y IH]; intros H; [reflexivity|]. cbn [flat_r keys map flat_map]. rewrite (H e (or_introl eq_refl)). cbn [bind]. rewrite IH; [reflexivity|]. intros e' I. apply H. right. exact I.
Qed.
Lemma held_value key v xs : key <> "@type" -> held Some key v xs -> exists ys, Permutation xs ys /\ property_value key v ys.
Proof.
  intros NT H. assert (HC : forall ck, has_container (prop_def c (Some key)) ck = c_contains (container_of c key) ck) by (intros ck; symmetry; apply container_key, NT).
  destruct H as [v xs FB F|M _|y xs M _ G|js ys CL _ F].
  - exists xs. split; [apply Permutation_refl|]. pose proof (flatb_key _ FB) as [_ FK]. apply expand_all_items in F; [|unfold unlist; rewrite HC; apply FK; tauto]. revert F. apply ev_impl. intros n F. destruct (F false) as (x & E & I & NN).
    exists x. rewrite no_wrap. unfold wrap_list. rewrite HC, (FK CKList) by tauto. cbn [andb]. split; [|auto]. unfold expand_property. rewrite not_json, !HC, (FK CKLanguage), (FK CKIndex), (FK CKType), (FK CKId) by tauto. destruct v; exact E.
  - exists []. split; [constructor|]. apply (ev_succ (fun _ => True)); [|apply ev_always; auto]. intros n _. exists (XArr []). rewrite no_wrap. unfold wrap_list. rewrite HC, (mapped_unlist _ M). cbn [andb items]. split; [|split; [reflexivity|discriminate]].
    unfold expand_property. rewrite not_json. cbn [expand_element element_body flat_r bind]. rewrite HC, (mapped_unlist _ M). reflexivity.
  - destruct G as (f & ND & V & _ & P). exists (flat_map f (keys (entries_sorted o y))). split; [eapply Permutation_trans; [exact P|apply flat_keys_of, sorted_perm]|].
    assert (V' : forall e, In e (entries_sorted o y) -> Forall2 (member key (fst e)) (force_array (snd e)) (f (fst e))).
    { intros [k w] I. apply (Permutation_in _ (Permutation_sym (sorted_perm y))) in I. apply V. apply assoc_In_nodup; assumption. }
    assert (UL : c_contains (container_of c key) CKList = false) by (apply mapped_unlist, M).
    destruct (c_contains (container_of c key) CKLanguage) eqn:CL.
    + apply ev_always. intros n. exists (XArr (flat_map f (keys (entries_sorted o y)))). rewrite no_wrap. unfold wrap_list. rewrite HC, UL. cbn [andb items]. split; [|split; [reflexivity|discriminate]].
      unfold expand_property. rewrite not_json, HC, CL. unfold expand_language_map. rewrite (flat_r_keys f); [reflexivity|]. intros e I. specialize (V' e I). unfold member in V'. rewrite HC, CL in V'. clear -V'. cbn zeta.
      induction V' as [|j x js xs (t & Rt & s & -> & ->) F IH]; [reflexivity|]. cbn [flat_r]. rewrite IH, Rt. reflexivity.
    + assert (V2 : forall e, In e (entries_sorted o y) -> exists zs t, Forall2 (expands (Some key)) (force_array (snd e)) zs /\ xkey io o c (fst e) = Ok t /\
        Forall2 (fun z x => index_item io fin rnd o c (has_container (prop_def c (Some key))) "@index" (fst e) (unnone t) z = Ok (Some x)) zs (f (fst e))).
      { intros e I. specialize (V' e I). destruct (read_ok (fst e) false) as [t Rt]. apply key_key in Rt. unfold member in V'. rewrite HC, CL in V'.
        assert (X : exists zs, Forall2 (expands (Some key)) (force_array (snd e)) zs /\ Forall2 (fun z x => index_item io fin rnd o c (has_container (prop_def c (Some key))) "@index" (fst e) (unnone t) z = Ok (Some x)) zs (f (fst e))).
        { clear -V' Rt. induction V' as [|j x js xs (t' & Rt' & z & Z1 & Z2) F (zs & A & B)]; [exists []; split; constructor|]. exists (z :: zs). assert (t' = t) by congruence. subst t'. split; constructor; assumption. }
        destruct X as (zs & A & B). exists zs, t. auto. }
      assert (EV : ev (fun n => forall e, In e (entries_sorted o y) -> exists z zs t, XE n c (Some key) (snd e) true = Ok z /\ items z = zs /\ xkey io o c (fst e) = Ok t /\
        Forall2 (fun z x => index_item io fin rnd o c (has_container (prop_def c (Some key))) "@index" (fst e) (unnone t) z = Ok (Some x)) zs (f (fst e)))).
      { assert (X : ev (fun n => Forall (fun e => exists z zs t, XE n c (Some key) (snd e) true = Ok z /\ items z = zs /\ xkey io o c (fst e) = Ok t /\
          Forall2 (fun z x => index_item io fin rnd o c (has_container (prop_def c (Some key))) "@index" (fst e) (unnone t) z = Ok (Some x)) zs (f (fst e))) (entries_sorted o y))).
        { apply ev_forall. apply Forall_forall. intros e I. destruct (V2 e I) as (zs & t & A & B & D). apply expand_all_items in A; [|apply key_unlist, UL]. revert A. apply ev_impl. intros n A.
          destruct (A true) as (z & E & Iz & _). exists z, zs, t. auto. }
        revert X. apply ev_impl. intros n X e I. exact (proj1 (Forall_forall _ _) X e I). }
      revert EV. apply ev_impl. intros n EV. exists (XArr (flat_map f (keys (entries_sorted o y)))). rewrite no_wrap. unfold wrap_list. rewrite HC, UL. cbn [andb items]. split; [|split; [reflexivity|discriminate]].
      unfold expand_property. rewrite not_json, !HC, CL. unfold mapped in M. rewrite CL in M. cbn [orb] in M.
      assert (M' : c_contains (container_of c key) CKIndex || c_contains (container_of c key) CKType || c_contains (container_of c key) CKId = true) by (destruct (c_contains (container_of c key) CKIndex), (c_contains (container_of c key) CKType), (c_contains (container_of c key) CKId); reflexivity || discriminate M).
      rewrite M'. unfold expand_index_map. rewrite (flat_r_keys f); [reflexivity|]. intros [k w] I. destruct (EV _ I) as (z & zs & t & E & Iz & Rt & D). cbn [fst snd] in *. cbv zeta. rewrite (sc_prev _ SC). cbv beta iota.
      assert (MC : (if has_container (prop_def c (Some key)) CKType || has_container (prop_def c (Some key)) CKId then c else c) = c) by (destruct (has_container (prop_def c (Some key)) CKType), (has_container (prop_def c (Some key)) CKId); reflexivity). rewrite !MC.
      assert (MT : (if has_container (prop_def c (Some key)) CKType then match prop_def c (Some k) with Some id => match nd_context id with Some lc => xprocess io ld pf c lc (nd_base_url id) (popts_of o) | None => Ok c end | None => Ok c end else Ok c) = Ok c).
      { pose proof (no_context_of (Some k)) as NC. destruct (prop_def c (Some k)) as [d|]; [rewrite NC|]; destruct (has_container (prop_def c (Some key)) CKType); reflexivity. }
      rewrite MT. cbn [bind]. rewrite Rt. cbn [bind]. fold (unnone t). rewrite E. cbn [bind]. rewrite Iz.
      assert (IK : match prop_def c (Some key) with Some d => match nd_index d with Some i => i | None => "@index" end | None => "@index" end = "@index") by (pose proof (no_index_key key) as NI; destruct (prop_def c (Some key)); [rewrite NI|]; reflexivity).
      rewrite IK. clear -D. induction D as [|z0 x0 zs xs E F IH]; [reflexivity|]. cbn [flat_r]. rewrite E. cbn [bind]. rewrite IH. reflexivity.
  - exists [(None, OList ys)]. split; [apply Permutation_refl|]. apply ev_forall2 in F. revert F. apply ev_succ. intros n F. exists (XObj (None, OList ys)). rewrite no_wrap. unfold wrap_list. rewrite HC, CL. cbn [andb x_is_list snd negb is_list].
    split; [|split; [reflexivity|discriminate]]. unfold expand_property. rewrite not_json. cbn [expand_element element_body].
    assert (R : flat_r (fun item => do x <- XE n c (Some key) item false ; Ok (items x)) js = Ok ys).
    { clear -F. induction F as [|j x l xs H F IH]; [reflexivity|]. cbn [flat_r]. rewrite H. cbn [bind items]. rewrite IH. reflexivity. }
    rewrite R. cbn [bind]. rewrite HC, CL. reflexivity.
Qed.

(** **** Graphs and included nodes *)
Lemma group_flat kw x key : kw = KGraph \/ kw = KIncluded -> kiri_with rel co c (TmKw kw) x false = Ok (Some key) -> flatb key = true.
Proof.
  intros KW H. assert (NC : kw <> KContext) by (destruct KW as [->| ->]; discriminate). pose proof (keyword_with kw x false key NC H) as R.
  assert (E : container_of c key = CNone).
  { unfold container_of. destruct (streq_spec key "@type") as [->|NT].
    - pose proof (kw_rd KType ltac:(discriminate)) as R'. pose proof (rd_fun _ _ _ R R') as X. destruct KW as [->| ->]; discriminate.
    - unfold get_normal. destruct (assoc key (ac_defs c)) as [d|] eqn:D; [|reflexivity].
      destruct (expand_assoc io c key true AKeep (TmKw kw) d (proj1 R true) ltac:(discriminate) D) as [NV|(kw' & X & ->)]; [apply (sc_alias _ SC _ _ _ D NV KW)|]. rewrite (sc_free _ SC) in D. discriminate. }
  unfold flatb, mapped. rewrite E. reflexivity.
Qed.
Lemma group_added kw l m m' : kw = KGraph \/ kw = KIncluded -> avoids (eq (TmKw kw)) m -> Forall (fun x => exists n, snd x = ONode n) l ->
  Forall (fun x => kept x /\ wf (snd x)) l ->
  (forall x key, In x l -> kiri_with rel co c (TmKw kw) x false = Ok (Some key) -> item_place key (Some (kw_str kw)) (snd x)) ->
  compact_property rel co rec (TmKw kw) l c false m = Ok m' ->
  exists k v xs, m' = m ++ [(k, v)] /\ rd k (TmKw kw) /\ reordered same_i l xs /\ Forall2 (expands (Some (kw_str kw))) (force_array v) xs.
Proof.
  intros KW A Nd K P H.
  assert (RD : forall x key, kiri_with rel co c (TmKw kw) x false = Ok (Some key) -> rd key (TmKw kw)).
  { intros x key X. eapply keyword_with; [|exact X]. destruct KW as [-> | ->]; discriminate. }
  destruct (property_trip (fun _ => Some (kw_str kw)) (TmKw kw) false l m m' ltac:(discriminate) K) as (mp & xs & -> & S & (f & ND & V & _ & Pm) & NE & KO).
  - intros x key _ X I. exact (A _ _ I (RD _ _ X) eq_refl).
  - intros x key I X. pose proof (group_flat _ _ _ KW X) as FB. pose proof (flatb_key _ FB) as [_ FK].
    split; [apply P; assumption|intros _; apply unlist_kw|intros Z; congruence| |intros Z; rewrite (mapped_flat _ Z) in FB; discriminate| | | | ]; rewrite FK by tauto; discriminate.
  - intros key _ X FB. rewrite (group_flat _ _ _ KW X) in FB. discriminate.
  - clear -KW SC LW. induction l as [|x l IH]; constructor; [|exact IH]. apply Forall_forall. intros y _ key X _. pose proof (group_flat _ _ _ KW X) as FB. apply (fk_container _ _ (flatb_key _ FB)). tauto.
  - exact H.
  - assert (AN : forall x, asked l x -> exists n, snd x = ONode n) by (intros x [I|[_ ->]]; [exact (proj1 (Forall_forall _ _) Nd _ I)|cbn; eauto]).
    assert (KE : exists k v, mp = [(k, v)]).
    { destruct mp as [|[k v] [|[k' v'] mp]]; [congruence|eauto|]. exfalso. unfold keys in *. cbn [map fst] in *. inversion ND as [|? ? NI _]; subst. apply NI. left.
      destruct (KO k (or_introl eq_refl)) as (x & Ax & Cx). destruct (KO k' (or_intror (or_introl eq_refl))) as (y & Ay & Cy).
      eapply group_key; [exact KW| | |exact Cy|exact Cx]; apply AN; assumption. }
    destruct KE as (k & v & ->). exists k, v, (f k). split; [reflexivity|]. destruct (KO k (or_introl eq_refl)) as (x & Ax & Cx). split; [exact (RD _ _ Cx)|]. split.
    + apply (Reordered _ _ _ xs); [|exact S]. cbn [keys map fst flat_map] in Pm. rewrite app_nil_r in Pm. apply Permutation_sym, Pm.
    + specialize (V k v). cbn [assoc] in V. rewrite streq_refl in V. specialize (V eq_refl). pose proof (group_flat _ _ _ KW Cx) as FB. inversion V as [? ? _ F|M|? ? M|? ? CL]; subst.
      * exact F.
      * rewrite (mapped_flat _ M) in FB. discriminate.
      * rewrite (mapped_flat _ M) in FB. discriminate.
      * destruct (listed_flat _ CL) as (X & _). congruence.
Qed.

(** The identifier that a key is read as. *)
Definition pk (k : string) : id := match read k true (Some AKeep) with Ok (Some (TmId i)) => i | _ => IInvalid "" end.
Lemma pk_rd k i : rd k (TmId i) -> pk k = i.
Proof. intros [H _]. unfold pk. rewrite H. reflexivity. Qed.
Definition chooses (p : id) (r : bool) (x : iobj) (key : string) : Prop := kiri_with rel co c (TmId p) x r = Ok (Some key).
(** What is known of the values of a property, and what is wanted of the keys. *)
Record handled (G : string -> json -> list iobj -> Prop) (r : bool) (e : id * list iobj) : Prop := {
  hd_kept : kept_property io c (fst e);
  hd_values : Forall (fun x => kept x /\ wf (snd x)) (snd e);
  hd_fits : forall x key, In x (snd e) -> chooses (fst e) r x key -> fits Some key x;
  hd_empty : forall key, snd e = [] -> chooses (fst e) r (None, ONode (node_new None)) key -> c_contains (container_of c key) CKList = false;
  hd_lists : ForallOrdPairs (fun x y => forall key, chooses (fst e) r x key -> chooses (fst e) r y key -> c_contains (container_of c key) CKList = false) (snd e);
  hd_taken : forall x k v xs, asked (snd e) x -> chooses (fst e) r x k -> held Some k v xs -> exists zs, Permutation xs zs /\ G k v zs
}.
Lemma nodup_append {A} (a b : list A) : NoDup a -> NoDup b -> (forall x, In x a -> In x b -> False) -> NoDup (a ++ b).
Proof.
  induction 1 as [|x a NI N IH]; intros B D; [exact B|]. cbn [app]. constructor; [|apply IH; [exact B|]; intros y I; apply D; right; exact I].
  rewrite in_app_iff. intros [I|I]; [contradiction|]. exact (D x (or_introl eq_refl) I).
Qed.
Lemma in_r {A B} (R : A -> B -> Prop) l l' y : Forall2 R l l' -> In y l' -> exists x, In x l /\ R x y.
Proof. induction 1 as [|a b l l' H F IH]; [intros []|]. intros [<-|I]; [exists a; split; [left; reflexivity|exact H]|]. destruct (IH I) as (x & Ix & Hx). exists x. split; [right; exact Ix|exact Hx]. Qed.
Lemma at_key_app {A} k (a b : list (string * (id * list A))) : at_key k (a ++ b) = at_key k a ++ at_key k b.
Proof. apply flat_map_app. Qed.
Lemma at_key_none {A} k (a : list (string * (id * list A))) : ~ In k (map fst a) -> at_key k a = [].
Proof.
  unfold at_key. induction a as [|d a IH]; [reflexivity|]. cbn [map In flat_map]. intros N. destruct (streq_spec (fst d) k); [tauto|]. apply IH. tauto.
Qed.
Lemma at_key_here {A} k (p : id) (f : string -> list A) ks : NoDup ks -> In k ks -> at_key k (map (fun k => (k, (p, f k))) ks) = f k.
Proof.
  induction ks as [|k' ks IH]; [intros _ []|]. intros N. inversion N as [|? ? NI N']; subst. unfold at_key. cbn [map flat_map fst snd]. intros [->|I].
  - rewrite streq_refl. fold (at_key k (map (fun k => (k, (p, f k))) ks)). rewrite at_key_none; [apply app_nil_r|]. rewrite map_map. cbn [fst]. rewrite List.map_id. exact NI.
  - destruct (streq_spec k' k) as [->|_]; [contradiction|]. apply IH; assumption.
Qed.
Lemma properties_trip G r ps : NoDup (map fst ps) -> Forall (handled G r) ps -> forall m m', avoids (fun t => exists p, In p (map fst ps) /\ t = TmId p) m ->
  fold_r (fun m (e : id * list iobj) => compact_property rel co rec (TmId (fst e)) (snd e) c r m) m ps = Ok m' ->
  exists mp dss, m' = m ++ mp /\ NoDup (keys mp) /\ (forall k, In k (keys mp) <-> In k (map fst (concat dss))) /\
    Forall2 (fun (e : id * list iobj) ds => ds <> [] /\ Forall (fun d => rd (fst d) (TmId (fst e)) /\ kept_property io c (fst e) /\ fst (snd d) = fst e) ds /\
      reordered same_i (snd e) (flat_map (fun d => snd (snd d)) ds)) ps dss /\
    (forall k v, In (k, v) mp -> G k v (at_key k (concat dss))).
Proof.
  induction ps as [|[p l] ps IH]; intros ND K m m' A H; cbn [fold_r] in H.
  - injection H as <-. exists [], []. rewrite app_nil_r. split; [reflexivity|]. split; [constructor|]. split; [cbn; tauto|]. split; [constructor|intros k v []].
  - cbn [fst snd] in H. destruct (compact_property rel co rec (TmId p) l c r m) as [m1|] eqn:E; cbn [bind] in H; [|discriminate]. inversion K as [|? ? [K1 K2 K3 K4 K5 K6] K']; subst. cbn [fst snd map] in *. inversion ND as [|? ? NI ND']; subst.
    assert (RD : forall x key, chooses p r x key -> rd key (TmId p)) by (intros x key X; eapply with_rd; [exact (proj1 K1)|exact X]).
    assert (NTy : forall x key, chooses p r x key -> key <> "@type") by (intros x key X ->; pose proof (rd_fun _ _ _ (RD _ _ X) (kw_rd KType ltac:(discriminate))); discriminate).
    destruct (property_trip Some (TmId p) r l m m1 ltac:(discriminate) K2) as (mp & xs & -> & S & GR & NE & KO); [| | | |exact E|].
    { intros x key _ X I. apply (A _ _ I (RD _ _ X)). exists p. split; [left; reflexivity|reflexivity]. }
    { exact K3. }
    { intros key El X FB. split; [exact (K4 key El X)|reflexivity]. }
    { exact K5. }
    apply (grouped_taken _ G) in GR. 2:{ intros k v ys Ea Hh. destruct (KO k) as (x & Ax & Cx); [apply in_keys_assoc; eauto|]. eapply K6; eassumption. }
    destruct GR as (f & Nk & V & _ & Pm).
    assert (RK : forall k, In k (keys mp) -> rd k (TmId p)) by (intros k I; destruct (KO k I) as (x & _ & Cx); exact (RD _ _ Cx)).
    destruct (IH ND' K' (m ++ mp) m') as (mp' & dss & -> & Nk' & KK & D & X); [|exact H|].
    { intros k t I R (q & Iq & ->). unfold keys in I. rewrite map_app in I. apply in_app_or in I. destruct I as [I|I]; [apply (A _ _ I R); exists q; split; [right; exact Iq|reflexivity]|].
      pose proof (rd_fun _ _ _ R (RK _ I)) as Eq. injection Eq as ->. contradiction. }
    assert (DJ : forall k, In k (map fst (concat dss)) -> ~ In k (keys mp)).
    { intros k I Ik. apply in_map_iff in I. destruct I as (d & <- & I). apply in_concat in I. destruct I as (ds & Ids & Id).
      destruct (in_r _ _ _ _ D Ids) as (e & Ie & _ & Fd & _). destruct (proj1 (Forall_forall _ _) Fd _ Id) as (R & _). pose proof (rd_fun _ _ _ R (RK _ Ik)) as Eq. injection Eq as Eq. apply NI. rewrite <- Eq. apply (List.in_map fst), Ie. }
    set (ds := map (fun k => (k, (p, f k))) (keys mp)).
    assert (MD : map fst ds = keys mp) by (unfold ds; rewrite map_map; cbn [fst]; apply List.map_id).
    exists (mp ++ mp'), (ds :: dss). rewrite app_assoc. split; [reflexivity|]. split; [|split; [|split]].
    + unfold keys. rewrite map_app. apply nodup_append; [exact Nk|exact Nk'|]. intros k I I'. apply (DJ k); [apply KK, I'|exact I].
    + intros k. unfold keys. cbn [concat]. rewrite !map_app, !in_app_iff, MD. specialize (KK k). unfold keys in KK |- *. tauto.
    + constructor; [|exact D]. cbn [fst snd]. split; [|split].
      * unfold ds. destruct mp; [congruence|discriminate].
      * apply Forall_forall. intros d I. apply in_map_iff in I. destruct I as (k & <- & I). cbn [fst snd]. split; [exact (RK _ I)|]. auto.
      * apply (Reordered _ _ _ xs); [|exact S]. unfold ds. rewrite flat_map_concat_map, map_map. cbn [snd]. rewrite <- flat_map_concat_map. apply Permutation_sym, Pm.
    + intros k v I. cbn [concat]. rewrite at_key_app. apply in_app_or in I. destruct I as [I|I].
      * assert (Ik : In k (keys mp)) by (apply in_map_iff; exists (k, v); auto). unfold ds. rewrite at_key_here by assumption. rewrite at_key_none; [rewrite app_nil_r; apply V; apply assoc_In_nodup; assumption|]. intros Z. exact (DJ _ Z Ik).
      * assert (Ik : In k (keys mp')) by (apply in_map_iff; exists (k, v); auto). rewrite at_key_none; [apply X, I|]. rewrite MD. apply DJ, KK, Ik.
Qed.
Definition as_props (mp : jobject) : list xentry := map (fun e => (fst e, TmId (pk (fst e)), snd e)) mp.
Lemma unread_props mp : unread (as_props mp) = mp.
Proof. unfold unread, as_props. rewrite map_map. induction mp as [|[k v] mp IH]; [reflexivity|]. cbn [map fst snd] in *. f_equal. exact IH. Qed.
Lemma not_reverse key : match prop_def c (Some key) with Some d => nd_reverse d | None => false end = false.
Proof. destruct (prop_def c (Some key)) as [d|] eqn:D; [|reflexivity]. exact (sd_reverse _ (prop_simple _ _ D)). Qed.
Lemma step_props ap (f : string -> list iobj) ix i ts g inc rs b mp : 
  Forall (fun e => kept_property io c (pk (fst e)) /\ property_value (fst e) (snd e) (f (fst e))) mp -> forall ps,
  steps ap ((ix, MkNode i ts g inc ps rs), b) (as_props mp)
    ((ix, MkNode i ts g inc (gather (map (fun k => (pk k, f k)) (keys mp)) ps) rs), b).
Proof.
  induction 1 as [|[k v] mp [[K _] F] _ IH]; intros ps; [apply steps_nil|]. cbn [as_props map fst snd] in *.
  change ((k, TmId (pk k), v) :: map (fun e : string * json => (fst e, TmId (pk (fst e)), snd e)) mp) with ([(k, TmId (pk k), v)] ++ as_props mp).
  eapply steps_app; [|cbn [keys map fst gather fold_left]; exact (IH (insert_all (pk k) (f k) ps))]. clear IH.
  apply steps_one. revert F. apply ev_impl. intros n (x & E & I & NN) self.
  cbn [node_entry]. unfold property_entry. rewrite (name_colon _ K), (name_policy _ _ K). cbn [bind negb snd fst]. rewrite E. cbn [bind]. cbv zeta.
  unfold store. rewrite not_reverse, I. destruct (wrap_graph _ _ _ _); [congruence|reflexivity|reflexivity].
Qed.
Definition strip (l : list iobj) : list inode := flat_map (fun x => match as_node x with Some n => [n] | None => [] end) l.
Lemma as_nodes_strip e (xs : list iobj) : Forall (fun x => exists n, snd x = ONode n) xs -> as_nodes e xs = Ok (strip xs).
Proof.
  unfold as_nodes, strip. induction 1 as [|[ix x] xs [n E] F IH]; [reflexivity|]. cbn [snd] in E. subst x. cbn [map_r flat_map as_node snd fst bind]. rewrite IH. reflexivity.
Qed.
Definition flat_value (k : string) (v : json) (xs : list iobj) : Prop := unlist (Some k) /\ Forall2 (expands (Some k)) (force_array v) xs.
Lemma step_reverse ap k (f : string -> list iobj) r ix i ts g inc ps b : ap <> Some "@reverse" ->
  Forall (fun e => rd (fst e) (TmId (pk (fst e))) /\ kept_property io c (pk (fst e)) /\ flat_value (fst e) (snd e) (f (fst e)) /\
    Forall (fun x => exists n, snd x = ONode n) (f (fst e))) r -> r <> [] ->
  steps ap ((ix, MkNode i ts g inc ps None), b) [(k, TmKw KReverse, JObj r)]
    ((ix, MkNode i ts g inc ps (Some (gather (map (fun k => (pk k, strip (f k))) (keys (entries_sorted o r))) []))), b).
Proof.
  intros N F NE. set (Q := fun e : string * json => rd (fst e) (TmId (pk (fst e))) /\ kept_property io c (pk (fst e)) /\ flat_value (fst e) (snd e) (f (fst e)) /\
    Forall (fun x => exists n, snd x = ONode n) (f (fst e))) in *.
  assert (F' : Forall Q (entries_sorted o r)) by (eapply Permutation_Forall; [apply sorted_perm|exact F]).
  assert (NE' : entries_sorted o r <> []) by (intros E; pose proof (sorted_perm r) as P; rewrite E in P; apply Permutation_sym, Permutation_nil in P; contradiction).
  assert (G : forall l rs, Forall Q l -> rs <> None \/ l <> [] ->
    ev (fun n => fold_r (reverse_entry io o (XE n) c) (MkNode i ts g inc ps rs) l = Ok (MkNode i ts g inc ps (Some (gather (map (fun k => (pk k, strip (f k))) (keys l)) (opt_list rs)))))).
  { clear F F' NE NE'. intros l rs F. revert rs. induction F as [|[k' v] l (R & [K _] & [UL F] & Nd) _ IH]; intros rs NE.
    - destruct rs; [apply ev_always; reflexivity|tauto].
    - cbn [fst snd] in *. apply expand_all_items in F; [|exact UL]. assert (SN : Some (insert_all (pk k') (strip (f k')) (opt_list rs)) <> None) by congruence. specialize (IH _ (or_introl SN)).
      eapply ev_impl; [|exact (ev_and _ _ F IH)]. clear F IH. intros n [F IH]. destruct (F false) as (x & E & I & NN). pose proof (not_reverse k') as RV.
      assert (ST : reverse_entry io o (XE n) c (MkNode i ts g inc ps rs) (k', v) = Ok (add_reverse (pk k') (strip (f k')) (MkNode i ts g inc ps rs))).
      { unfold reverse_entry. rewrite (rd_key _ _ R). cbn [bind]. rewrite (name_colon _ K), (name_policy _ _ K). cbn [bind negb]. rewrite E. cbn [bind]. rewrite RV, I, (as_nodes_strip _ _ Nd). reflexivity. }
      cbn [fold_r]. rewrite ST. cbn [bind add_reverse]. exact IH. }
  specialize (G _ None F' (or_intror NE')). apply steps_one. revert G. apply ev_impl. intros n G self.
  cbn [node_entry]. unfold keyword_entry. rewrite (not_reversed _ N), no_key by reflexivity. cbn [snd fst]. rewrite G. reflexivity.
Qed.

Lemma rd_not k t s kw : rd k t -> s = kw_str kw -> t <> TmKw kw -> k <> s.
Proof. intros [R _] -> N ->. specialize (R true). rewrite read_kw_str in R. congruence. Qed.
Lemma not_floating k : k <> "@graph" -> free_floating (Some k) = false.
Proof. intros N. cbn. destruct (streq_spec k "@graph"); [contradiction|reflexivity]. Qed.
Lemma node_at_key key p n : rd key (TmId p) -> node_place (Some key) (Some key) n.
Proof.
  intros R. split; [intros E; injection E as E; exact (rd_not _ _ "@reverse" KReverse R eq_refl ltac:(discriminate) E)|].
  intros _. split; [|auto]. apply not_floating. exact (rd_not _ _ "@graph" KGraph R eq_refl ltac:(discriminate)).
Qed.
Lemma kept_tags x : kept x -> tags_ok (snd x).
Proof.
  intros K. unfold tags_ok. assert (T : forall ix v s, kept (ix, OVal v) -> OVal v = OVal (VLang s) -> tagged s).
  { intros ix v s Kv E. inversion Kv as [? ? V| |]; subst. injection E as ->. apply (kv_tagged _ _ _ V _ eq_refl). }
  destruct x as [ix [v|n|l]]; cbn [snd concerned].
  - constructor; [|constructor]. intros s E. eapply T; eassumption.
  - constructor; [discriminate|constructor].
  - inversion K as [| |? ? F]; subst. clear -F T. induction F as [|[iy y] l [Ky _] _ IH]; constructor; [|exact IH]. cbn [snd]. intros s E. rewrite E in Ky. eapply T; [exact Ky|reflexivity].
Qed.
Lemma value_at_key p x key v iv : kept_property io c p -> kept x -> kiri_with rel co c (TmId p) x false = Ok (Some key) ->
  kept (iv, OVal v) -> In (OVal v) (concerned (snd x)) -> value_fits (prop_def c (Some key)) v.
Proof.
  intros [KP ND] K H Kv I s ->. inversion Kv as [? ? V| |]; subst. destruct (kv_tagged _ _ _ V _ eq_refl) as (_ & _ & VL & VD).
  pose proof (with_rd _ _ _ _ KP H) as R. destruct (prop_def c (Some key)) as [d|] eqn:D; [|cbn; auto].
  unfold prop_def in D. destruct (streq_spec key "@type") as [_|NT]; [discriminate|]. unfold get_normal in D.
  destruct (expand_assoc io c key true AKeep (TmId p) d (proj1 R true) ltac:(discriminate) D) as [NV|(kw & X & _)]; [|discriminate].
  pose proof (kiri_with_full _ _ _ _ H) as H'.
  destruct (chosen_suits rel c (co_mode co) (TmId p) x key (kept_tags _ K) H') as (d' & I' & NV' & S).
  - unfold get_value. destruct (streq_spec key "@type"); [contradiction|]. unfold get_normal. rewrite D. cbn. rewrite NV. reflexivity.
  - cbn [term_str]. intros ->. congruence.
  - rewrite (assoc_In_nodup _ _ _ HN I') in D. injection D as ->. cbn [mapped_type lang_for dir_for].
    assert (T : nd_typ d = None \/ nd_typ d = Some TyNone).
    { destruct (nd_typ d) as [t|] eqn:T; [|auto]. destruct (su_type _ _ _ S _ T) as [->|F]; [auto|]. destruct (proj1 (Forall_forall _ _) F _ I). }
    split; [exact T|]. destruct T as [T|T].
    + split.
      * intros E. destruct (nd_language d) as [[|l]|] eqn:L; [reflexivity| |auto]. pose proof (proj1 (Forall_forall _ _) (su_language _ _ _ S _ T L) _ I) as X. cbn in X. rewrite E in X. destruct X.
      * intros E. destruct (nd_direction d) as [[|l]|] eqn:L; [reflexivity| |auto]. pose proof (proj1 (Forall_forall _ _) (su_direction _ _ _ S _ T L) _ I) as X. cbn in X. congruence.
    + destruct (sd_none _ (sc_defs _ SC _ _ (assoc_In_nodup _ _ _ HN I')) T) as [-> ->]. auto.
Qed.
Lemma item_at_key p x key : kept_property io c p -> kept x -> kiri_with rel co c (TmId p) x false = Ok (Some key) -> item_place key (Some key) (snd x).
Proof.
  intros KP K H. pose proof (with_rd _ _ _ _ (proj1 KP) H) as R. pose proof (rd_not _ _ "@graph" KGraph R eq_refl ltac:(discriminate)) as NG.
  destruct x as [ix [v|n|l]]; cbn [snd item_place place].
  - pose proof (value_at_key p (ix, OVal v) key v ix KP K H K (or_introl eq_refl)) as VF. exists key. split; [reflexivity|]. split; [reflexivity|]. split; [exact NG|exact VF].
  - apply (node_at_key _ _ _ R).
  - split; [reflexivity|]. split; [exact NG|]. inversion K as [| |? ? F]; subst. apply Forall_forall. intros [iy y] I. pose proof (proj1 (Forall_forall _ _) F _ I) as [Ky Ly].
    cbn [snd] in *. destruct y as [v|n|l']; cbn [place]; [|apply (node_at_key _ _ _ R)|discriminate Ly].
    pose proof (value_at_key p (ix, OList l) key v iy KP K H Ky) as VF. cbn [snd concerned] in VF. specialize (VF (proj2 (in_map_iff _ _ _) (ex_intro _ (iy, OVal v) (conj eq_refl I)))).
    exists key. split; [reflexivity|]. split; [reflexivity|]. split; [exact NG|exact VF].
Qed.
Lemma included_place x n key : snd x = ONode n -> kiri_with rel co c (TmKw KIncluded) x false = Ok (Some key) -> node_place (Some key) (Some "@included") n.
Proof.
  intros E H. split; [discriminate|]. intros _. split; [reflexivity|]. pose proof (keyword_with KIncluded x false key ltac:(discriminate) H) as R.
  destruct (prop_def c (Some key)) as [d|] eqn:D; cbn [mapped_type]; [|intros [X|X]; discriminate].
  unfold prop_def in D. destruct (streq_spec key "@type") as [_|NT]; [discriminate|]. unfold get_normal in D.
  destruct (expand_assoc io c key true AKeep (TmKw KIncluded) d (proj1 R true) ltac:(discriminate) D) as [NV|(kw & X & ->)]; [|injection X as <-; reflexivity].
  destruct (sc_alias _ SC _ _ _ D NV (or_intror eq_refl)) as (_ & -> & _). intros [X|X]; discriminate.
Qed.


(** **** Terms and their values *)
Lemma named_def p key d : rd key (TmId p) -> assoc key (ac_defs c) = Some d -> key <> "@type" /\ nd_value d = Some (TmId p) /\ get_value c key = Some (Some (TmId p)).
Proof.
  intros R D. assert (NT : key <> "@type") by (exact (rd_not _ _ "@type" KType R eq_refl ltac:(discriminate))). split; [exact NT|].
  destruct (expand_assoc io c key true AKeep (TmId p) d (proj1 R true) ltac:(discriminate) D) as [NV|(kw & X & _)]; [|discriminate]. split; [exact NV|].
  unfold get_value. destruct (streq_spec key "@type"); [contradiction|]. unfold get_normal. rewrite D. cbn. rewrite NV. reflexivity.
Qed.
Lemma chosen_def p x key d : kept_property io c p -> tags_ok (snd x) -> chooses p false x key -> assoc key (ac_defs c) = Some d ->
  nd_value d = Some (TmId p) /\ suits (co_mode co) d x.
Proof.
  intros [KP ND] T H D. pose proof (with_rd _ _ _ _ KP H) as R. destruct (named_def _ _ _ R D) as (NT & NV & GV). split; [exact NV|].
  pose proof (kiri_with_full _ _ _ _ H) as H'. destruct (chosen_suits rel c (co_mode co) (TmId p) x key T H' GV) as (d' & I' & NV' & S).
  - cbn [term_str]. intros ->. congruence.
  - rewrite (assoc_In_nodup _ _ _ HN I') in D. injection D as ->. exact S.
Qed.
Lemma container_def p key ck : rd key (TmId p) -> c_contains (container_of c key) ck = true ->
  exists d, assoc key (ac_defs c) = Some d /\ container_of c key = nd_container d /\ prop_def c (Some key) = Some d.
Proof.
  intros R. assert (NT : key <> "@type") by (exact (rd_not _ _ "@type" KType R eq_refl ltac:(discriminate))). unfold container_of, prop_def. destruct (streq_spec key "@type"); [contradiction|].
  unfold get_normal. destruct (assoc key (ac_defs c)) as [d|]; [intros _; exists d; auto|]. destruct ck; discriminate.
Qed.
Lemma property_fits p l x key : kept_property io c p -> mapped_well io c p l -> In x l -> kept x -> chooses p false x key -> fits Some key x.
Proof.
  intros KP M Ix K C. pose proof (with_rd _ _ _ _ (proj1 KP) C) as R. pose proof (kept_tags _ K) as T.
  assert (SU : forall ck, c_contains (container_of c key) ck = true -> exists d, assoc key (ac_defs c) = Some d /\ container_of c key = nd_container d /\ prop_def c (Some key) = Some d /\ nd_value d = Some (TmId p) /\ suits (co_mode co) d x /\ simple_def d).
  { intros ck E. destruct (container_def _ _ _ R E) as (d & D1 & D2 & D3). destruct (chosen_def p x key d KP T C D1) as [D4 D5]. exists d. split; [exact D1|]. split; [exact D2|]. split; [exact D3|]. split; [exact D4|]. split; [exact D5|]. exact (sc_defs _ SC _ _ D1). }
  split.
  - apply (item_at_key p); assumption.
  - intros FB. apply key_unlist. apply (fk_container _ _ (flatb_key _ FB)). tauto.
  - intros _. split; [reflexivity|]. split; [exact (rd_not _ _ "@graph" KGraph R eq_refl ltac:(discriminate))|exact (rd_not _ _ "@reverse" KReverse R eq_refl ltac:(discriminate))].
  - intros CL. destruct (SU _ CL) as (d & D1 & D2 & _ & _ & S & _). pose proof (su_container _ _ _ S) as HD. rewrite D2 in CL. destruct (nd_container d); try discriminate CL. destruct HD as (E & y & Ey). exists y. destruct x as [ix x]. cbn in E, Ey. subst. reflexivity.
  - intros MP. assert (X : exists ck, (ck = CKLanguage \/ ck = CKIndex \/ ck = CKId \/ ck = CKType) /\ c_contains (container_of c key) ck = true).
    { unfold mapped in MP. destruct (c_contains (container_of c key) CKLanguage) eqn:C1; [exists CKLanguage; tauto|]. destruct (c_contains (container_of c key) CKIndex) eqn:C2; [exists CKIndex; tauto|].
      destruct (c_contains (container_of c key) CKId) eqn:C3; [exists CKId; tauto|]. exists CKType. split; [tauto|exact MP]. }
    destruct X as (ck & Hk & CK). destruct (SU _ CK) as (d & D1 & D2 & _ & D4 & S & SD). rewrite D2 in CK. pose proof (sd_container _ SD) as NG. pose proof (su_container _ _ _ S) as HD.
    destruct (c_contains (nd_container d) CKIndex) eqn:CI; [destruct (proj1 (Forall_forall _ _) (mw_index _ _ _ _ M _ _ D1 D4 CI) _ Ix) as (A & B & _); auto|].
    assert (Y : (exists v, snd x = OVal v) \/ exists n, snd x = ONode n /\ ~ a_graph (ONode n)).
    { destruct (nd_container d); try discriminate NG; try discriminate CI; cbn [holds] in HD; try (destruct Hk as [->|[->|[->| ->]]]; discriminate CK); try (right; exact HD); left; destruct HD as (_ & [(s & E)|(_ & y & E)]); eauto. }
    destruct Y as [(v & E)|(n & E & NA)]; rewrite E; (split; [reflexivity|]); [intros (i & g & X); discriminate X|exact NA].
  - intros CI. destruct (SU _ CI) as (d & D1 & D2 & _ & D4 & _ & _). rewrite D2 in CI. destruct (proj1 (Forall_forall _ _) (mw_index _ _ _ _ M _ _ D1 D4 CI) _ Ix) as (_ & _ & X). exact X.
  - intros CI. destruct (SU _ CI) as (d & D1 & D2 & _ & D4 & S & SD). rewrite D2 in CI. pose proof (sd_container _ SD) as NG. pose proof (su_container _ _ _ S) as HD.
    assert (Y : exists n, snd x = ONode n) by (destruct (nd_container d); try discriminate NG; try discriminate CI; destruct HD as (n & E & _); eauto).
    destruct Y as (n & E). exists n. split; [exact E|]. intros i Ei. exact (proj1 (Forall_forall _ _) (mw_id _ _ _ _ M _ _ D1 D4 CI) _ Ix n i E Ei).
  - intros CI. destruct (SU _ CI) as (d & D1 & D2 & _ & D4 & S & SD). rewrite D2 in CI. pose proof (sd_container _ SD) as NG. pose proof (su_container _ _ _ S) as HD.
    destruct (nd_container d); try discriminate NG; try discriminate CI; destruct HD as (n & E & _); eauto.
  - intros CI. destruct (SU _ CI) as (d & D1 & D2 & D3 & D4 & S & SD). rewrite D2 in CI. pose proof (sd_container _ SD) as NG. pose proof (su_container _ _ _ S) as HD.
    assert (Y : fst x = None /\ ((exists s, snd x = OVal (VLang s)) \/ exists l, snd x = OVal (VLit l None))).
    { destruct (nd_container d); try discriminate NG; try discriminate CI; destruct HD as (E & [Z|(_ & Z)]); auto. }
    destruct Y as (E & Y). split; [exact E|]. rewrite D3.
    assert (TY : nd_typ d = None \/ nd_direction d = None).
    { destruct (nd_typ d) as [t|] eqn:Td; [|auto]. right. destruct (su_type _ _ _ S _ Td) as [->|Z]; [apply (sd_none _ SD Td)|]. destruct Y as [(s & Y)|(y & Y)]; rewrite Y in Z; inversion Z as [|? ? Z1 _]; destruct Z1. }
    assert (DI : forall r, nd_direction d = Some (NSome r) -> Forall (has_direction r) (concerned (snd x))).
    { intros r Er. destruct TY as [TY|TY]; [exact (su_direction _ _ _ S r TY Er)|congruence]. }
    destruct Y as [(s & Y)|(y & Y)].
    + pose proof (proj1 (Forall_forall _ _) (mw_language _ _ _ _ M _ _ D1 D4 CI) _ Ix _ Y) as [MV ML]. exists (VLang s), (ls_data s). split; [exact Y|]. split; [reflexivity|]. split; [|exact ML]. cbn [v_language].
      assert (ED : ls_direction s = dir_for c (Some d)).
      { destruct (nd_direction d) as [[|r]|] eqn:Er; [apply MV; discriminate| |apply MV; discriminate]. specialize (DI r eq_refl). rewrite Y in DI. cbn [dir_for]. rewrite Er. inversion DI; subst. assumption. }
      rewrite <- ED. unfold string_value, ls_new. unfold tags_ok in T. rewrite Y in T. inversion T as [|? ? T1 _]; subst. destruct (T1 s eq_refl) as [Z|Z].
      * destruct s as [sd [sl|] sr]; [|destruct Z]; reflexivity.
      * destruct s as [sd [sl|] [sr|]]; try (destruct Z; reflexivity); reflexivity.
    + pose proof (proj1 (Forall_forall _ _) (mw_language _ _ _ _ M _ _ D1 D4 CI) _ Ix _ Y) as [[s ->] MV]. exists (VLit (LStr s) None), s. split; [exact Y|]. split; [reflexivity|]. split; [|discriminate]. cbn [v_language].
      assert (ED : dir_for c (Some d) = None).
      { destruct (nd_direction d) as [[|r]|] eqn:Er; [apply MV; discriminate| |apply MV; discriminate]. specialize (DI r eq_refl). rewrite Y in DI. inversion DI as [|? ? Z _]; subst. destruct Z. }
      rewrite ED. reflexivity.
Qed.
Lemma ord_pairs {A} (R : A -> A -> Prop) l : (forall a x b y e, l = a ++ x :: b ++ y :: e -> R x y) -> ForallOrdPairs R l.
Proof.
  induction l as [|x l IH]; intros H; constructor.
  - apply Forall_forall. intros y I. apply in_split in I. destruct I as (b & e & ->). exact (H [] x b y e eq_refl).
  - apply IH. intros a x' b y e ->. exact (H (x :: a) x' b y e eq_refl).
Qed.
Lemma tags_node (ix : option string) n : tags_ok (snd (ix, ONode n)).
Proof. constructor; [discriminate|constructor]. Qed.
Lemma property_handled p l : kept_property io c p -> mapped_well io c p l -> Forall kept l -> Forall (fun x => wf (snd x)) l -> handled property_value false (p, l).
Proof.
  intros KP M K W. assert (RD : forall x key, chooses p false x key -> rd key (TmId p)) by (intros x key X; eapply with_rd; [exact (proj1 KP)|exact X]).
  split; cbn [fst snd].
  - exact KP.
  - apply Forall_forall. intros x I. split; [exact (proj1 (Forall_forall _ _) K _ I)|exact (proj1 (Forall_forall _ _) W _ I)].
  - intros x key I C. eapply property_fits; [exact KP|exact M|exact I|exact (proj1 (Forall_forall _ _) K _ I)|exact C].
  - intros key _ C. destruct (c_contains (container_of c key) CKList) eqn:CL; [|reflexivity]. destruct (container_def _ _ _ (RD _ _ C) CL) as (d & D1 & D2 & _).
    destruct (chosen_def _ _ _ _ KP (tags_node _ _) C D1) as [_ S]. pose proof (su_container _ _ _ S) as HD. rewrite D2 in CL. destruct (nd_container d); try discriminate CL. destruct HD as (_ & y & Ey). discriminate Ey.
  - apply ord_pairs. intros a x b y e El key Cx Cy. destruct (c_contains (container_of c key) CKList) eqn:CL; [|reflexivity]. destruct (container_def _ _ _ (RD _ _ Cx) CL) as (d & D1 & D2 & _).
    assert (Ix : In x l) by (rewrite El; apply in_elt). assert (Iy : In y l) by (rewrite El; rewrite app_comm_cons, app_assoc; apply in_elt).
    assert (LI : forall z, In z l -> chooses p false z key -> is_list (snd z) = true).
    { intros z Iz Cz. destruct (chosen_def _ _ _ _ KP (kept_tags _ (proj1 (Forall_forall _ _) K _ Iz)) Cz D1) as [_ S]. pose proof (su_container _ _ _ S) as HD. rewrite D2 in CL. destruct (nd_container d); try discriminate CL. destruct HD as (_ & w & ->). reflexivity. }
    pose proof (LI _ Ix Cx) as Lx. pose proof (LI _ Iy Cy) as Ly. destruct (chosen_def _ _ _ _ KP (kept_tags _ (proj1 (Forall_forall _ _) K _ Ix)) Cx D1) as [NV _]. rewrite D2 in CL.
    pose proof (mw_list _ _ _ _ M _ _ D1 NV CL) as LE. rewrite El in LE. rewrite filter_app in LE. cbn [filter] in LE. rewrite Lx, filter_app in LE. cbn [filter] in LE. rewrite Ly in LE.
    rewrite app_length in LE. cbn [length] in LE. rewrite app_length in LE. cbn [length] in LE. lia.
  - intros x k v xs _ C H. apply held_value; [|exact H]. exact (rd_not _ _ "@type" KType (RD _ _ C) eq_refl ltac:(discriminate)).
Qed.
Lemma reverse_flat p x key : kept_property io c p -> unindexed c p -> tags_ok (snd x) -> chooses p true x key -> flatb key = true.
Proof.
  intros [KP ND] U T H. pose proof (with_rd _ _ _ _ KP H) as R. assert (E : container_of c key = CNone \/ container_of c key = CSet); [|unfold flatb, mapped; destruct E as [->| ->]; reflexivity].
  unfold container_of. destruct (streq_spec key "@type") as [_|NT]; [destruct (ac_type c); auto|]. unfold get_normal. destruct (assoc key (ac_defs c)) as [d|] eqn:D; [|auto].
  destruct (named_def _ _ _ R D) as (_ & NV & GV). pose proof (kiri_with_full _ _ _ _ H) as H'.
  destruct (chosen_preferred rel c (co_mode co) (TmId p) x true key T H' GV) as (cs & qs & PC & _ & (cs1 & cn & cs2 & qs1 & q & qs2 & -> & -> & _ & _ & (d' & I' & V' & C' & W') & _)).
  { cbn [term_str]. intros ->. congruence. }
  rewrite (assoc_In_nodup _ _ _ HN I') in D. injection D as ->. pose proof (U _ _ (assoc_In_nodup _ _ _ HN I') NV) as UI. rewrite C' in *.
  assert (IC : In cn (cs1 ++ cn :: cs2)) by apply in_elt. clear -PC IC UI. remember (cs1 ++ cn :: cs2) as cs eqn:EQ. clear EQ. remember true as rev eqn:ER. destruct PC as [b l e f RW B EE FF]. rewrite !in_app_iff in IC.
  assert (IX : forall l, (l = index_set \/ l = []) -> ~ In cn l) by (intros l' [->| ->]; [intros [<-|[<-|[]]]; discriminate UI|intros []]).
  destruct IC as [IC|[IC|[IC|[IC|IC]]]].
  - destruct (IX b); [tauto|exact IC].
  - inversion RW; subst; try discriminate. destruct IC as [<-|[]]. auto.
  - destruct IC as [<-|[]]. auto.
  - destruct (IX e); [tauto|exact IC].
  - destruct FF as [(_ & X & _)|[_ ->]]; [congruence|destruct IC].
Qed.
Lemma reverse_handled p l : kept_property io c p -> unindexed c p -> Forall kept_node l -> Forall (fun x => wf_node (snd x)) l -> handled flat_value true (p, map (fun x : inode => (fst x, ONode (snd x))) l).
Proof.
  intros KP U K W. set (l' := map (fun x : inode => (fst x, ONode (snd x))) l).
  assert (RD : forall x key, chooses p true x key -> rd key (TmId p)) by (intros x key X; eapply with_rd; [exact (proj1 KP)|exact X]).
  assert (AN : forall x, asked l' x -> exists n, snd x = ONode n).
  { intros x [I|[_ ->]]; [|cbn; eauto]. apply in_map_iff in I. destruct I as (y & <- & _). cbn. eauto. }
  assert (FL : forall x key, asked l' x -> chooses p true x key -> flatb key = true).
  { intros x key A C. destruct x as [ix x]. destruct (AN _ A) as [n E]. cbn in E. subst x. exact (reverse_flat _ _ _ KP U (tags_node _ _) C). }
  split; cbn [fst snd].
  - exact KP.
  - apply Forall_forall. intros x I. apply in_map_iff in I. destruct I as (y & <- & I). pose proof (proj1 (Forall_forall _ _) K _ I) as Ky. pose proof (proj1 (Forall_forall _ _) W _ I) as Wy.
    destruct y as [iy y]. split; [constructor; exact Ky|constructor; exact Wy].
  - intros x key I C. pose proof (FL x key (or_introl I) C) as FB. pose proof (flatb_key _ FB) as [_ FK]. destruct (AN x (or_introl I)) as [n E].
    split; [rewrite E; apply (node_at_key _ p), (RD _ _ C)|intros _; apply key_unlist, FK; tauto|intros Z; congruence| |intros Z; rewrite (mapped_flat _ Z) in FB; discriminate| | | | ]; rewrite FK by tauto; discriminate.
  - intros key El C. apply (fk_container _ _ (flatb_key _ (FL (None, ONode (node_new None)) key (or_intror (conj El eq_refl)) C))). tauto.
  - apply ord_pairs. intros a x b y e El key Cx _. assert (Ix : In x l') by (rewrite El; apply in_elt). apply (fk_container _ _ (flatb_key _ (FL x key (or_introl Ix) Cx))). tauto.
  - intros x k v xs A C H. pose proof (FL x k A C) as FB. exists xs. split; [apply Permutation_refl|]. destruct H as [v xs _ F|M|? ? M|? ? CL].
    + split; [|exact F]. apply key_unlist, (fk_container _ _ (flatb_key _ FB)). tauto.
    + rewrite (mapped_flat _ M) in FB. discriminate.
    + rewrite (mapped_flat _ M) in FB. discriminate.
    + destruct (listed_flat _ CL) as (X & _). congruence.
Qed.

(** **** Reverse properties *)
Definition inj (x : inode) : iobj := (fst x, ONode (snd x)).
Lemma same_inj l xs : Forall2 same_i (map inj l) xs -> Forall2 same_in l (strip xs) /\ Forall (fun x : iobj => exists n, snd x = ONode n) xs.
Proof.
  revert xs. induction l as [|x l IH]; intros xs F; inversion F as [|? y ? ys [E S] F']; subst; [split; constructor|]. destruct (IH _ F') as [A B].
  destruct y as [iy y]. cbn in E, S. inversion S; subst. split; [|constructor; [cbn; eauto|exact B]]. cbn. constructor; [split; [reflexivity|assumption]|exact A].
Qed.
Lemma reordered_inj l xs : reordered same_i (map inj l) xs -> reordered same_in l (strip xs) /\ Forall (fun x : iobj => exists n, snd x = ONode n) xs.
Proof.
  intros [m P F]. destruct (same_inj _ _ F) as [A B]. split; [|eapply Permutation_Forall; [apply Permutation_sym, P|exact B]].
  apply (Reordered _ _ _ (strip m)); [apply Permutation_flat_map, P|exact A].
Qed.
Lemma strip_flat {B} (g : B -> list iobj) l : strip (flat_map g l) = flat_map (fun x => strip (g x)) l.
Proof. induction l as [|x l IH]; [reflexivity|]. cbn [flat_map]. unfold strip at 1. rewrite flat_map_app. fold (strip (g x)). fold (strip (flat_map g l)). rewrite IH. reflexivity. Qed.
Lemma fold_r_map {A B C E} (f : A -> B -> result A E) (g : C -> B) l : forall a, fold_r f a (map g l) = fold_r (fun a x => f a (g x)) a l.
Proof. induction l as [|x l IH]; intros a; [reflexivity|]. cbn [map fold_r]. destruct (f a (g x)); [apply IH|reflexivity]. Qed.
Lemma reverse_fold m r : forall r0, NoDup (keys (r0 ++ r)) -> fold_r (reverse_step co c) (m, r0) r = Ok (m, r0 ++ r).
Proof.
  induction r as [|[k v] r IH]; intros r0 N; [rewrite app_nil_r; reflexivity|]. pose proof (not_reverse k) as RV.
  assert (ST : reverse_step co c (m, r0) (k, v) = Ok (m, r0 ++ [(k, v)])).
  { unfold reverse_step. rewrite RV, insert_fresh; [reflexivity|]. unfold keys in *. rewrite map_app in N. cbn [map fst] in N. apply NoDup_remove_2 in N. intros I. apply N, in_or_app. auto. }
  cbn [fold_r]. rewrite ST. cbn [bind]. rewrite IH; rewrite <- app_assoc; [reflexivity|exact N].
Qed.
Lemma adds_reverse ap rs ix g inc ps m c1 m' : ap <> Some "@reverse" -> rs <> Some [] ->
  Forall (fun p => kept_property io c (fst p) /\ unindexed c (fst p) /\ Forall kept_node (snd p)) (opt_list rs) ->
  NoDup (map fst (opt_list rs)) -> Forall (fun p => Forall (fun x => wf_node (snd x)) (snd p)) (opt_list rs) -> avoids (eq (TmKw KReverse)) m ->
  (match opt_list rs with
   | [] => Ok (c, m)
   | rs =>
       do c <- scoped io ld pf co c c (Some "@reverse") ;
       do r <- fold_r (fun r e => compact_property rel co rec (TmId (fst e)) (map (fun x : inode => (fst x, ONode (snd x))) (snd e)) c true r) [] rs ;
       do (m, r) <- fold_r (reverse_step co c) (m, []) r ;
       do m <- (match r with [] => Ok m | _ => put rel co c KReverse (JObj r) m end) ;
       Ok (c, m)
   end) = Ok (c1, m') ->
  c1 = c /\ exists rs', both (fun a b => reordered (fun p q => fst p = fst q /\ reordered (fun x y => fst x = fst y /\ same_node (snd x) (snd y)) (snd p) (snd q)) a b) rs rs' /\
    adds (eq (TmKw KReverse)) ap m m' (state ix g inc ps None) (state ix g inc ps rs').
Proof.
  intros N NE K ND W A H. destruct rs as [rs|]; cbn [opt_list] in *.
  2:{ injection H as <- <-. split; [reflexivity|]. exists None. split; [constructor|apply adds_none]. }
  destruct rs as [|e0 rs0]; [congruence|]. remember (e0 :: rs0) as rs eqn:RS.
  assert (NRS : rs <> []) by (subst; discriminate). clear e0 rs0 RS NE.
  assert (H' : (do c <- scoped io ld pf co c c (Some "@reverse") ;
       do r <- fold_r (fun r (e : id * list inode) => compact_property rel co rec (TmId (fst e)) (map (fun x : inode => (fst x, ONode (snd x))) (snd e)) c true r) [] rs ;
       do (m, r) <- fold_r (reverse_step co c) (m, []) r ;
       do m <- (match r with [] => Ok m | _ => put rel co c KReverse (JObj r) m end) ;
       Ok (c, m)) = Ok (c1, m')) by (destruct rs; [congruence|exact H]). clear H.
  rewrite scoped_same in H'. cbn [bind] in H'.
  destruct (fold_r (fun r (e : id * list inode) => compact_property rel co rec (TmId (fst e)) (map (fun x : inode => (fst x, ONode (snd x))) (snd e)) c true r) [] rs) as [r|] eqn:E; cbn [bind] in H'; [|discriminate].
  pose proof (fold_r_map (fun m (e : id * list iobj) => compact_property rel co rec (TmId (fst e)) (snd e) c true m) (fun e : id * list inode => (fst e, map inj (snd e))) rs []) as EM.
  pose proof (eq_trans EM E) as EN. clear EM. rename EN into EM.
  apply (properties_trip flat_value) in EM.
  - destruct EM as (mp & dss & EQ & Nk & Kk & D & X). cbn [app] in EQ. subst mp.
    assert (Er : r <> []).
    { intros ->. destruct rs as [|e rs]; [congruence|]. inversion D as [|? ds ? ? (Dn & _) _]; subst. destruct ds as [|d ds]; [congruence|]. cbn [concat app map] in Kk. apply (proj2 (Kk (fst d))). left. reflexivity. }
    rewrite (reverse_fold m r [] Nk) in H'. cbn [bind app] in H'.
    assert (HP : (do m <- put rel co c KReverse (JObj r) m ; Ok (c, m)) = Ok (c1, m')) by (destruct r; [congruence|exact H']). clear H'.
    destruct (put rel co c KReverse (JObj r) m) as [m1|] eqn:P; cbn [bind] in HP; [|discriminate]. injection HP as <- <-. split; [reflexivity|].
    assert (PKD : forall d, In d (concat dss) -> rd (fst d) (TmId (pk (fst d))) /\ kept_property io c (pk (fst d)) /\ Forall (fun x : iobj => exists n, snd x = ONode n) (snd (snd d))).
    { clear -D. induction rs as [|e rs IH] in dss, D |- *; inversion D as [|? ds ? dss' (D1 & D2 & D3) D4]; subst; cbn [concat]; [intros d []|]. cbn [fst snd] in *.
      intros d I. apply in_app_iff in I. destruct I as [I|I]; [|exact (IH _ D4 d I)]. destruct (proj1 (Forall_forall _ _) D2 _ I) as (R & KP & _).
      rewrite (pk_rd _ _ R). split; [exact R|]. split; [exact KP|]. destruct (reordered_inj _ _ D3) as [_ Q]. apply Forall_forall. intros x Ix. apply (proj1 (Forall_forall _ _) Q). apply in_flat_map. eauto. }
    assert (FR : Forall (fun e => rd (fst e) (TmId (pk (fst e))) /\ kept_property io c (pk (fst e)) /\ flat_value (fst e) (snd e) (at_key (fst e) (concat dss)) /\
      Forall (fun x : iobj => exists n, snd x = ONode n) (at_key (fst e) (concat dss))) r).
    { apply Forall_forall. intros [k v] I. cbn [fst snd]. assert (Ik : In k (keys r)) by (apply in_map_iff; exists (k, v); auto). apply Kk, in_map_iff in Ik. destruct Ik as (d & Ed & Id).
      destruct (PKD _ Id) as (P1 & P2 & _). rewrite Ed in P1, P2. split; [exact P1|]. split; [exact P2|]. split; [apply X, I|]. apply Forall_forall. intros x Ix. unfold at_key in Ix. apply in_flat_map in Ix.
      destruct Ix as (d' & Id' & Ix). destruct (streq (fst d') k); [|contradiction]. exact (proj1 (Forall_forall _ _) (proj2 (proj2 (PKD _ Id'))) _ Ix). }
    exists (Some (gather (map (fun k => (pk k, strip (at_key k (concat dss)))) (keys (entries_sorted o r))) [])). split.
    + constructor. set (dss' := map (map (fun d : string * (id * list iobj) => (fst d, (fst (snd d), strip (snd (snd d)))))) dss).
      assert (CC : concat dss' = map (fun d : string * (id * list iobj) => (fst d, (fst (snd d), strip (snd (snd d))))) (concat dss)) by (unfold dss'; symmetry; apply concat_map).
      assert (AT : forall k, strip (at_key k (concat dss)) = at_key k (concat dss')).
      { intros k. rewrite CC. unfold at_key. rewrite strip_flat. generalize (concat dss) as ds. induction ds as [|d ds IH]; [reflexivity|]. cbn [flat_map map fst snd]. rewrite IH. destruct (streq (fst d) k); reflexivity. }
      assert (EM2 : map (fun k => (pk k, strip (at_key k (concat dss)))) (keys (entries_sorted o r)) = map (fun k => (pk k, at_key k (concat dss'))) (keys (entries_sorted o r))) by (apply map_ext; intros k; rewrite AT; reflexivity).
      assert (PE : Permutation (keys r) (keys (entries_sorted o r))) by (apply Permutation_map, sorted_perm).
      rewrite EM2. apply (regroup same_in rs dss' _ pk ND).
      * eapply Permutation_NoDup; [exact PE|exact Nk].
      * intros k. rewrite CC, map_map. cbn [fst]. split.
        { intros I. apply (proj1 (Kk k)). exact (Permutation_in _ (Permutation_sym PE) I). }
        { intros I. exact (Permutation_in _ PE (proj2 (Kk k) I)). }
      * clear -D. subst dss'. induction rs as [|e rs IH] in dss, D |- *; inversion D as [|? ds ? dss' (D1 & D2 & D3) D4]; subst; cbn [map]; constructor; [|apply IH, D4]. cbn [fst snd] in *. split; [|split].
        { destruct ds; [congruence|discriminate]. }
        { clear -D2. induction D2 as [|d ds (R & KP & E) _ IH]; cbn [map]; constructor; [|exact IH]. cbn [fst snd]. split; [apply pk_rd, R|exact E]. }
        { destruct (reordered_inj _ _ D3) as [Q _]. rewrite strip_flat in Q. clear -Q. match goal with |- reordered _ _ ?a => match type of Q with reordered _ _ ?b => replace a with b; [exact Q|] end end.
          clear. induction ds as [|d ds IH]; [reflexivity|]. cbn [flat_map map snd]. rewrite IH. reflexivity. }
    + eapply adds_put; [discriminate|exact A|exact P|]. intros k i ts. apply step_reverse; assumption.
  - rewrite map_map. exact ND.
  - clear -K W LW SC VK HR. induction rs as [|[p l] rs IH]; [constructor|]. inversion K as [|? ? (K1 & K2 & K3) K4]; inversion W as [|? ? W1 W2]; subst. constructor; [|apply IH; assumption]. apply reverse_handled; assumption.
  - intros k t [].
Qed.

(** **** The other parts of a node *)
Lemma adds_index ap ap' ix g inc ps rs m m' : ap' <> Some "@reverse" -> avoids (eq (TmKw KIndex)) m ->
  (match ix with
   | Some i => if c_contains (container_ap c ap) CKIndex then Ok m else put rel co c KIndex (JStr i) m
   | None => Ok m
   end) = Ok m' -> adds (eq (TmKw KIndex)) ap' m m' (state None g inc ps rs) (state (lowered ap ix) g inc ps rs).
Proof.
  intros N A H. unfold lowered. destruct ix as [i|]; [|injection H as <-; destruct (c_contains _ _); apply adds_none].
  destruct (c_contains (container_ap c ap) CKIndex); [injection H as <-; apply adds_none|].
  eapply adds_put; [discriminate|exact A|exact H|]. intros k j ts. apply step_index, N.
Qed.
Lemma adds_one kw ap m k v (s s' : nstates) : rd k (TmKw kw) -> (forall i ts, steps ap (s i ts) [(k, TmKw kw, v)] (s' i ts)) -> adds (eq (TmKw kw)) ap m (m ++ [(k, v)]) s s'.
Proof.
  intros R S. exists [(k, TmKw kw, v)]. split; [reflexivity|]. split; [constructor; [exact R|constructor]|]. split; [constructor; [reflexivity|constructor]|exact S].
Qed.
Lemma adds_graph ap g ix inc ps rs m m' : ap <> Some "@reverse" -> Forall (fun x => kept x /\ full_node x) (opt_list g) ->
  Forall (fun x => wf (snd x)) (opt_list g) -> distinct same_i (opt_list g) -> avoids (eq (TmKw KGraph)) m ->
  (match g with Some g => compact_property rel co rec (TmKw KGraph) g c false m | None => Ok m end) = Ok m' ->
  exists g', both (fun a b => reordered same_i a b) g g' /\
    adds (eq (TmKw KGraph)) ap m m' (state ix None inc ps rs) (state ix g' inc ps rs).
Proof.
  intros N K W D A H. destruct g as [g|]; [|injection H as <-; exists None; split; [constructor|apply adds_none]]. cbn [opt_list] in *.
  assert (Nd : Forall (fun x : iobj => exists n, snd x = ONode n) g) by (clear -K; induction K as [|x g [_ (n & E & _)] _ IH]; [constructor|constructor; [eauto|exact IH]]).
  destruct (group_added KGraph g m m' (or_introl eq_refl) A Nd) as (k & v & xs & -> & R & S & X).
  - clear -K W. induction K as [|x g [K F] _ IH]; [constructor|]. inversion W; subst. constructor; [|auto]. split; [exact K|assumption].
  - intros x key I _. destruct (proj1 (Forall_forall _ _) K _ I) as [_ F]. change (kw_str KGraph) with "@graph".
    assert (P : place (Some key) (Some "@graph") (snd x)) by (apply full_place; [exact F|discriminate]). destruct F as (n & E & _). rewrite E in *. exact P.
  - exact H.
  - exists (Some xs). split; [constructor; exact S|]. destruct S as [ys P S]. apply adds_one; [exact R|]. intros i ts. apply step_graph; [exact N|exact X| | |].
    + eapply Permutation_Forall; [apply Permutation_sym, P|]. eapply same_all_nodes; eassumption.
    + eapply Permutation_Forall; [apply Permutation_sym, P|]. eapply same_all_wf; eassumption.
    + eapply distinct_perm; [exact same_i_sym|apply Permutation_sym, P|]. eapply same_all_distinct; eassumption.
Qed.
Lemma adds_included ap inc ix g ps rs m m' : ap <> Some "@reverse" -> (inc <> None -> xo_mode o = JsonLd11) -> Forall kept_node (opt_list inc) ->
  Forall (fun x => wf_node (snd x)) (opt_list inc) -> distinct same_in (opt_list inc) -> avoids (eq (TmKw KIncluded)) m ->
  (match inc with Some l => compact_property rel co rec (TmKw KIncluded) (map (fun x : inode => (fst x, ONode (snd x))) l) c false m | None => Ok m end) = Ok m' ->
  exists inc', both (fun a b => reordered same_in a b) inc inc' /\
    adds (eq (TmKw KIncluded)) ap m m' (state ix g None ps rs) (state ix g inc' ps rs).
Proof.
  intros N M K W D A H. destruct inc as [l|]; [|injection H as <-; exists None; split; [constructor|apply adds_none]]. cbn [opt_list] in *.
  assert (NE : Some l <> None) by congruence. specialize (M NE).
  destruct (group_added KIncluded (map inj l) m m' (or_intror eq_refl) A) as (k & v & xs & -> & R & S & X).
  - clear. induction l as [|x l IH]; [constructor|constructor; [exists (snd x); reflexivity|exact IH]].
  - clear -K W. induction K as [|[iy y] l K _ IH]; [constructor|]. inversion W; subst. constructor; [|auto]. cbn [inj fst snd]. split; [constructor; exact K|constructor; assumption].
  - intros x key I Hk. apply in_map_iff in I. destruct I as ([iy y] & <- & _). cbn [inj fst snd item_place place] in *. eapply included_place; [|exact Hk]. reflexivity.
  - exact H.
  - destruct (reordered_inj _ _ S) as [SI Nd]. destruct (as_nodes_all XInvalidIncludedValue xs Nd) as (ns & E1 & E2). rewrite (as_nodes_strip _ _ Nd) in E1. injection E1 as <-.
    exists (Some (strip xs)). split; [constructor; exact SI|]. apply adds_one; [exact R|]. destruct SI as [ys P SI].
    rewrite E2 in X. intros i ts. apply step_included; [exact N|exact M|exact X| |].
    + eapply Permutation_Forall; [apply Permutation_sym, P|]. clear -SI W. induction SI as [|x y l m [_ S] _ IH]; [constructor|]. inversion W; subst. constructor; [eapply (proj2 same_wf_both); eassumption|auto].
    + eapply distinct_perm; [exact same_in_sym|apply Permutation_sym, P|]. eapply distinct_related; [exact same_in_sym|exact same_in_trans|exact SI|exact D].
Qed.
Definition is_property (t : term) : Prop := exists p, t = TmId p.
Lemma adds_props ap ps ix g inc rs m m' : NoDup (map fst ps) -> Forall (fun p => kept_property io c (fst p) /\ mapped_well io c (fst p) (snd p) /\ Forall kept (snd p)) ps ->
  Forall (fun p => Forall (fun x => wf (snd x)) (snd p)) ps -> avoids is_property m ->
  fold_r (fun m (e : id * list iobj) => compact_property rel co rec (TmId (fst e)) (snd e) c false m) m (if co_ordered co then sort_key (fun e => id_str (fst e)) ps else ps) = Ok m' ->
  exists ps', reordered (fun p q => fst p = fst q /\ reordered same_i (snd p) (snd q)) ps ps' /\
    adds is_property ap m m' (state ix g inc [] rs) (state ix g inc ps' rs).
Proof.
  intros ND K W A H. set (qs := if co_ordered co then sort_key (fun e => id_str (fst e)) ps else ps) in *.
  assert (P : Permutation ps qs) by (unfold qs; destruct (co_ordered co); [apply sort_key_perm|apply Permutation_refl]). clearbody qs.
  apply (Permutation_NoDup (Permutation_map fst P)) in ND. apply (Permutation_Forall P) in K. apply (Permutation_Forall P) in W.
  apply (properties_trip property_value) in H; [|exact ND| |].
  - destruct H as (mp & dss & -> & Nk & Kk & D & X).
    assert (PKD : forall d, In d (concat dss) -> rd (fst d) (TmId (pk (fst d))) /\ kept_property io c (pk (fst d))).
    { clear -D. induction D as [|e ds qs dss (_ & D2 & _) _ IH]; cbn [concat]; [intros d []|]. intros d I. apply in_app_iff in I. destruct I as [I|I]; [|exact (IH d I)].
      destruct (proj1 (Forall_forall _ _) D2 _ I) as (R & KP & _). rewrite (pk_rd _ _ R). auto. }
    assert (KM : forall e, In e mp -> rd (fst e) (TmId (pk (fst e))) /\ kept_property io c (pk (fst e))).
    { intros e I. assert (Ik : In (fst e) (keys mp)) by (apply (List.in_map fst), I). apply Kk, in_map_iff in Ik. destruct Ik as (d & Ed & Id). rewrite <- Ed. apply PKD, Id. }
    exists (gather (map (fun k => (pk k, at_key k (concat dss))) (keys mp)) []). split.
    + eapply reordered_perm; [exact P|]. apply (regroup same_i qs dss (keys mp) pk ND Nk Kk).
      clear -D. induction D as [|e ds qs dss (D1 & D2 & D3) _ IH]; [constructor|]. constructor; [|exact IH]. split; [exact D1|]. split; [|exact D3].
      eapply Forall_impl; [|exact D2]. intros d (R & _ & E). split; [apply pk_rd, R|exact E].
    + exists (as_props mp). split; [rewrite unread_props; reflexivity|]. split; [|split].
      * apply Forall_forall. intros e I. unfold as_props in I. apply in_map_iff in I. destruct I as (q & <- & I). exact (proj1 (KM _ I)).
      * apply Forall_forall. intros e I. unfold as_props in I. apply in_map_iff in I. destruct I as (q & <- & I). exists (pk (fst q)). reflexivity.
      * intros i ts. apply step_props. apply Forall_forall. intros [k v] I. split; [exact (proj2 (KM _ I))|]. apply X, I.
  - apply Forall_forall. intros [p l] I. destruct (proj1 (Forall_forall _ _) K _ I) as (K1 & K2 & K3). pose proof (proj1 (Forall_forall _ _) W _ I) as W1. cbn [fst snd] in *. apply property_handled; assumption.
  - intros k t I R (p & _ & ->). exact (A _ _ I R (ex_intro _ p eq_refl)).
Qed.

(** **** Nodes *)
Lemma both_refl ts : both (fun a b : list id => reordered eq a b) ts ts.
Proof. destruct ts as [ts|]; constructor. exists ts; [apply Permutation_refl|]. induction ts; constructor; auto. Qed.
Lemma body_trip ap ap' ix n mi j : kept_node (ix, n) -> wf_node n -> ap' <> Some "@reverse" -> id_entry (n_id n) mi ->
  compact_node_body io ld rel pf co rec n ix c c ap (unread mi) = Ok j -> node_back ap ap' ix n j.
Proof.
  intros K W N Hi H. destruct n as [i ts g inc ps rs]. inversion K as [? ? ? ? ? ? ? _ Kt Kts Kg Km Kinc Kps Krs Krr _]; subst. inversion W as [? ? ? ? ? ? Wg Dg Winc Dinc Np Wp Nr Wr]; subst.
  unfold compact_node_body in H. cbn [n_id n_types n_reverse n_graph n_props n_included] in *.
  match type of H with bind ?r _ = _ => destruct r as [m1|] eqn:E1 end; cbn [bind] in H; [|discriminate].
  match type of H with bind ?r _ = _ => destruct r as [[c1 m2]|] eqn:E2 end; cbn [bind] in H; [|discriminate].
  assert (V1 : forall T : term -> Prop, ~ T (TmKw KId) -> avoids T (unread mi)).
  { intros T NT k t I R. destruct (id_good _ _ Hi) as [G F]. destruct (good_keys _ _ G I) as (e & Ie & Re). rewrite (rd_fun _ _ _ R Re), (proj1 (Forall_forall _ _) F _ Ie). exact NT. }
  destruct (types_added ts _ _ Kt Kts ltac:(apply V1; discriminate) E1) as (mt & -> & Ht).
  assert (V2 : forall T : term -> Prop, ~ T (TmKw KId) -> ~ T (TmKw KType) -> avoids T (unread mi ++ unread mt)).
  { intros T NT NU k t I R. unfold keys in I. rewrite map_app, in_app_iff in I. destruct I as [I|I]; [exact (V1 T NT k t I R)|].
    destruct (types_good_entry _ _ Ht) as [G F]. destruct (good_keys _ _ G I) as (e & Ie & Re). rewrite (rd_fun _ _ _ R Re), (proj1 (Forall_forall _ _) F _ Ie). exact NU. }
  destruct (adds_reverse ap' rs None None None [] _ c1 m2 N Krs Krr Nr Wr ltac:(apply V2; discriminate) E2) as (-> & rs' & Srs & A2).
  assert (V3 : forall T : term -> Prop, ~ T (TmKw KId) -> ~ T (TmKw KType) -> ~ T (TmKw KReverse) -> avoids T m2) by (intros T T1 T2 T3; eapply avoids_adds; [exact A2|apply V2; assumption|intros t <-; exact T3]).
  match type of H with bind ?r _ = _ => destruct r as [m3|] eqn:E3 end; cbn [bind] in H; [|discriminate].
  pose proof (adds_index ap ap' ix None None [] rs' m2 m3 N ltac:(apply V3; discriminate) E3) as A3.
  assert (V4 : forall T : term -> Prop, ~ T (TmKw KId) -> ~ T (TmKw KType) -> ~ T (TmKw KReverse) -> ~ T (TmKw KIndex) -> avoids T m3) by (intros T T1 T2 T3 T4; eapply avoids_adds; [exact A3|apply V3; assumption|intros t <-; exact T4]).
  match type of H with bind ?r _ = _ => destruct r as [m4|] eqn:E4 end; cbn [bind] in H; [|discriminate].
  destruct (adds_graph ap' g (lowered ap ix) None [] rs' m3 m4 N Kg Wg Dg ltac:(apply V4; discriminate) E4) as (g' & Sg & A4).
  assert (V5 : forall T : term -> Prop, ~ T (TmKw KId) -> ~ T (TmKw KType) -> ~ T (TmKw KReverse) -> ~ T (TmKw KIndex) -> ~ T (TmKw KGraph) -> avoids T m4) by (intros T T1 T2 T3 T4 T5; eapply avoids_adds; [exact A4|apply V4; assumption|intros t <-; exact T5]).
  match type of H with bind ?r _ = _ => destruct r as [m5|] eqn:E5 end; cbn [bind] in H; [|discriminate].
  assert (VP : avoids is_property m4) by (apply V5; intros [p X]; discriminate).
  destruct (adds_props ap' ps (lowered ap ix) g' None rs' m4 m5 Np Kps Wp VP E5) as (ps' & Sps & A5).
  assert (V6 : avoids (eq (TmKw KIncluded)) m5) by (eapply avoids_adds; [exact A5|apply V5; discriminate|intros t [p ->]; discriminate]).
  match type of H with bind ?r _ = _ => destruct r as [m6|] eqn:E6 end; cbn [bind] in H; [|discriminate]. injection H as <-.
  destruct (adds_included ap' inc (lowered ap ix) g' ps' rs' m5 m6 N Km Kinc Winc Dinc V6 E6) as (inc' & Sinc & A6).
  pose proof (adds_trans _ _ _ _ _ _ _ _ _ A2 (adds_trans _ _ _ _ _ _ _ _ _ A3
    (adds_trans _ _ _ _ _ _ _ _ _ A4 (adds_trans _ _ _ _ _ _ _ _ _ A5 A6)))) as (es & -> & G & T & St).
  right. exists mi, mt, es, g', inc', ps', rs'. cbn [n_id n_types n_graph n_included n_props n_reverse].
  split; [rewrite !unread_app, app_assoc; reflexivity|]. split; [exact Hi|]. split; [exact Ht|]. split; [exact G|]. split; [|split; [exact St|]].
  - eapply Forall_impl; [|exact T]. intros e Q. unfold rest_term, node_term. destruct Q as [<-|[<-|[<-|[[p ->]|<-]]]]; repeat split; discriminate.
  - intros i' ts'. constructor; try assumption. apply both_refl.
Qed.
Lemma types_context_same n c' : compact_types_context io ld rel pf co c n c = Ok c' -> c' = c.
Proof.
  unfold compact_types_context. match goal with |- bind ?r _ = _ -> _ => destruct r as [ts|] end; cbn [bind]; [|discriminate]. generalize (sort_key (fun s : string => s) ts). clear ts.
  intros l. induction l as [|t l IH]; cbn [fold_r]; [intros H; injection H as <-; reflexivity|]. pose proof (no_context_of (Some t)) as NC.
  destruct (prop_def c (Some t)) as [d|]; [rewrite NC|]; cbn [bind]; exact IH.
Qed.
Lemma node_trip ap ap' ix n j : kept_node (ix, n) -> wf_node n -> node_place ap ap' n -> compact_node io ld rel pf co rec n ix c c ap = Ok j -> node_back ap ap' ix n j.
Proof.
  intros K W [NR P] H. unfold compact_node in H. rewrite (sc_prev _ SC) in H.
  assert (E : (if n_empty n && is_some (n_id n) then c else c) = c) by (destruct (n_empty n && is_some (n_id n)); reflexivity). rewrite E in H. clear E.
  rewrite scoped_same in H. cbn [bind] in H. match type of H with bind ?r _ = _ => destruct r as [c1|] eqn:E1 end; cbn [bind] in H; [|discriminate].
  apply types_context_same in E1. subst c1. unfold compact_node_in in H.
  destruct (n_id n) as [i|] eqn:Ei; [|eapply (body_trip _ _ _ _ []); [exact K|exact W|exact NR|left; split; [exact Ei|reflexivity]|exact H]].
  assert (KI : kept_id io rel c i) by (inversion K as [? ? ? ? ? ? ? Ki]; subst; cbn in Ei; apply Ki, Ei).
  assert (OF : (do s <- kiri rel co c (TmId i) false ; do alias <- kiri rel co c (TmKw KId) true ;
      compact_node_body io ld rel pf co rec n ix c c ap (match alias with Some k => insert k (opt_string s) [] | None => [] end)) = Ok j -> node_back ap ap' ix n j).
  { intros B. match type of B with bind ?r _ = _ => destruct r as [s|] eqn:Es end; cbn [bind] in B; [|discriminate].
    match type of B with bind ?r _ = _ => destruct r as [al|] eqn:Ea end; cbn [bind] in B; [|discriminate].
    destruct s as [s|]; [|destruct (kiri_some _ _ _ _ _ Es)]. assert (KR : forall k, al = Some k -> kkey rel co c KId = Ok k).
    { intros k ->. unfold kkey. rewrite Ea. reflexivity. }
    destruct al as [k|].
    - eapply (body_trip _ _ _ _ [(k, TmKw KId, JStr s)]); [exact K|exact W|exact NR| |exact B]. right. exists i, k, s. split; [exact Ei|]. split; [reflexivity|]. split; [exact (KR k eq_refl)|].
      apply kiri_full in Es. eapply id_read; eassumption.
    - exfalso. revert Ea. clear. intros Ea. apply kiri_ok in Ea. revert Ea. apply compact_some. discriminate. }
  destruct (n_empty n) eqn:Em; [|exact (OF H)].
  assert (NN : n = node_new (Some i) /\ (ix = None \/ forall k d, assoc k (ac_defs c) = Some d -> nd_typ d = Some TyId \/ nd_typ d = Some TyVocab -> c_contains (nd_container d) CKIndex = true)).
  { inversion K as [? ? ts g inc ps rs _ _ _ _ _ _ _ _ _ Ix]; subst. cbn in Ei. subst. split; [|apply Ix; [discriminate|exact Em]].
    unfold n_empty in Em. cbn in Em. destruct ts; [discriminate|]. destruct g; [discriminate|]. destruct inc; [discriminate|]. destruct ps; [|discriminate]. destruct rs; [discriminate|]. reflexivity. }
  destruct NN as [-> IX]. destruct (P eq_refl) as [FF PE].
  assert (DF : forall t, mapped_type (prop_def c ap) = Some t -> exists k d, ap = Some k /\ assoc k (ac_defs c) = Some d /\ nd_typ d = Some t /\ k <> "@type").
  { intros t Mt. destruct (prop_def c ap) as [d|] eqn:D; [|discriminate]. unfold prop_def in D. destruct ap as [k|]; [|discriminate]. destruct (streq_spec k "@type") as [|NT]; [discriminate|]. exists k, d. auto. }
  assert (ST : forall t s, mapped_type (prop_def c ap) = Some t -> t = TyId \/ t = TyVocab ->
     (t = TyId -> read s true None = Ok (Some (TmId i))) -> (t = TyVocab -> read s true (Some AKeep) = Ok (Some (TmId i))) -> node_back ap ap' ix (node_new (Some i)) (JStr s)).
  { intros t s Mt Ht R1 R2. assert (ap = ap') as <- by (apply PE; rewrite Mt; destruct Ht as [-> | ->]; auto). destruct (DF _ Mt) as (k & d & -> & D & Td & NT).
    left. exists i, s. split; [reflexivity|]. split; [|split; [reflexivity|]].
    { unfold lowered. destruct IX as [->|IX]; [destruct (c_contains _ _); reflexivity|]. cbn [container_ap]. unfold container_of. destruct (streq_spec k "@type"); [contradiction|]. unfold get_normal. rewrite D, (IX _ _ D); [reflexivity|]. rewrite Td. destruct Ht as [->| ->]; auto. }
    assert (NG : k <> "@graph") by (intros ->; discriminate FF).
    apply (ev_succ (fun _ => True)); [|apply ev_always; auto]. intros n _ fm. rewrite (expand_string io ld fin rnd pf o base c k (prop_def c (Some k)) NG eq_refl) with (l := LStr s); [| |reflexivity].
    - unfold expand_literal. unfold mapped_type in Mt. rewrite Mt. unfold xiri. destruct Ht as [-> | ->]; [rewrite (R1 eq_refl)|rewrite VK, (R2 eq_refl)]; reflexivity.
    - intros d' Ed. exact (sd_context _ (prop_simple _ _ Ed)). }
  destruct (mapped_type (prop_def c ap)) as [[| | | |]|] eqn:Mt; try exact (OF H).
  - match type of H with bind ?r _ = _ => destruct r as [s|] eqn:Es end; cbn [bind] in H; [|discriminate]. destruct s as [s|]; [|destruct (kiri_some _ _ _ _ _ Es)]. injection H as <-.
    apply (ST TyId s); auto; [|discriminate]. intros _. apply kiri_full in Es. eapply id_read; eassumption.
  - match type of H with bind ?r _ = _ => destruct r as [s|] eqn:Es end; cbn [bind] in H; [|discriminate]. destruct s as [s|]; [|destruct (kiri_some _ _ _ _ _ Es)]. injection H as <-.
    apply (ST TyVocab s); auto; [discriminate|]. intros _. apply kiri_full in Es. eapply name_read; [|exact Es]. apply id_name; [exact KI|].
    destruct (DF _ eq_refl) as (k & d & _ & D & Td & _). exists k, d. auto.
Qed.
End Level.

(** **** Objects *)
Theorem object_trip n : forall x ap ap' j, kept x -> wf (snd x) -> place ap ap' (snd x) ->
  compact_object io ld rel pf co n (fst x) (snd x) c c ap = Ok j -> back ap ap' x j.
Proof.
  induction n as [|n IH]; intros [ix x] ap ap' j K W P H; cbn [compact_object fst snd] in *; [discriminate|]. destruct x as [v|y|l].
  - destruct P as (k & -> & -> & NG & VF). inversion K as [? ? V| |]; subst. cbn [back fst snd].
    assert (NC : forall d, prop_def c (Some k) = Some d -> nd_context d = None) by (intros d D; exact (sd_context _ (prop_simple _ _ D))).
    assert (NJ : mapped_type (prop_def c (Some k)) <> Some TyJson) by (destruct (prop_def c (Some k)) as [d|] eqn:D; [exact (sd_json _ (prop_simple _ _ D))|discriminate]).
    assert (KP : keepable io c (prop_def c (Some k)) ix v).
    { constructor.
      - exact (kv_null _ _ _ V).
      - intros l s ->. destruct (kv_type _ _ _ V _ _ eq_refl) as [A B]. split; [exact A|]. split; [exact B|]. intros t d D _. exact (sd_context _ (sc_defs _ SC _ _ D)).
      - intros s ->. destruct (kv_tagged _ _ _ V _ eq_refl) as (A & B & _). auto.
      - intros s -> _ _ _. destruct (VF s eq_refl) as (A & B & D). auto.
      - intros E. contradiction.
      - intros j' _ t d D _. exact (sd_context _ (sc_defs _ SC _ _ D)). }
    destruct (value_trip_all io ld fin rnd pf o base rel co c LW HN VK (fun kw _ => sc_keywords _ SC kw) k _ NG eq_refl NC ix v j KP H) as (v' & S & E).
    assert (KI : kept_index c k ix = lowered (Some k) ix).
    { unfold kept_index, remove_index, lowered. cbn [container_ap]. destruct ix; destruct (c_contains (container_of c k) CKIndex); reflexivity. }
    destruct (opt_eqb ty_eqb (mapped_type (prop_def c (Some k))) (Some TyJson)) eqn:T.
    { destruct NJ. destruct (mapped_type _) as [[]|]; try discriminate T. reflexivity. }
    exists (lowered (Some k) ix, OVal v'). split; [split; [reflexivity|constructor; exact S]|]. apply (ev_succ (fun _ => True)); [|apply ev_always; auto]. intros m _ fm. rewrite E, KI. reflexivity.
  - inversion K as [|? ? K'|]; subst. inversion W as [|? W'|]; subst. cbn [back fst snd]. eapply node_trip; [exact IH|exact K'|exact W'|exact P|exact H].
  - destruct P.
Qed.
Lemma full_trip n ap' (x : iobj) y j : kept x -> wf (snd x) -> snd x = ONode y -> n_empty y = false -> ap' <> Some "@reverse" ->
  compact_object io ld rel pf co n (fst x) (snd x) c c None = Ok j ->
  exists es y', j = JObj (unread es) /\ same_node y y' /\ Forall good es /\ Forall (fun e => node_term (snd (fst e))) es /\ steps ap' start es ((fst x, y'), false).
Proof.
  intros K W Ey Em NR H. assert (F : full_node x) by (exists y; auto). pose proof (object_trip n x None ap' j K W (full_place None _ _ F NR) H) as B.
  unfold back in B. rewrite Ey in B. destruct B as [(i & s & -> & _)|(mi & mt & es & g & inc & ps & rs & -> & Hi & Ht & G & T & St & S)]; [discriminate Em|].
  exists (mi ++ mt ++ es), (MkNode (n_id y) (n_types y) g inc ps rs). specialize (S (n_id y) (n_types y)). rewrite node_eta in S. split; [reflexivity|]. split; [exact S|]. split; [|split].
  - apply Forall_app. split; [apply (id_good _ _ Hi)|]. apply Forall_app. split; [apply (types_good_entry _ _ Ht)|exact G].
  - apply Forall_app. split; [apply (id_node _ _ Hi)|]. apply Forall_app. split; [apply (types_node _ _ Ht)|apply rest_node, T].
  - eapply steps_app; [apply (id_steps _ _ _ None None None [] None None NR Hi)|]. eapply steps_app; [apply (types_steps _ _ _ None None None [] None _ NR Ht)|]. apply St.
Qed.

(** **** Documents *)
Lemma xkey_ok c0 k : exists t, xkey io o c0 k = Ok t.
Proof.
  unfold xkey, xiri. rewrite VK. assert (H : exists t, expand_iri_simple io c0 (NSome (xp_of_str k)) false (Some AKeep) = Ok t).
  { unfold expand_iri_simple, expand_absolute, expand_tail, expand_absolute. unfold xp_of_str. destruct (kw_of_str k); [eauto|].
    destruct (is_keyword_like k); [eauto|]. destruct (expand_defined c0 k (Some AKeep)); [eauto|].
    repeat match goal with |- exists t, (if ?b then _ else _) = _ => destruct b | |- exists t, (match ?b with _ => _ end) = _ => destruct b end; eauto. }
  destruct H as [t ->]. eexists. reflexivity.
Qed.
Definition blank_context (j : json) : bool := match j with JNull | JArr [] | JObj [] => true | _ => false end.
(** Reading the context [j] from [c0] gives the active context. *)
Definition reads_context (c0 : actx) (j : json) : Prop :=
  ac_prev c0 = None /\ if blank_context j then c0 = c else exists lc, context_of_json (iri_ref_ok io) j = Ok lc /\ process_full io ld pf c0 lc base (popts_of o) = Ok c.
Definition contexted (j : json) (m : jobject) : jobject := if blank_context j then m else ("@context", j) :: m.
Lemma preliminary_ok c0 m : exists r, preliminary io o c0 m = Ok r.
Proof.
  unfold preliminary. generalize (false, false). induction m as [|e m IH]; intros s; [cbn; eauto|]. cbn [fold_r]. destruct (xkey_ok c0 (fst e)) as [t ->]. cbn [bind]. apply IH.
Qed.
Lemma top_expands c0 j es ix n : reads_context c0 j -> Forall good es -> Forall (fun e => node_term (snd (fst e))) es -> steps None start es ((ix, n), false) -> n_empty n = false ->
  ev (fun k => XE k c0 None (JObj (contexted j (unread es))) false = Ok (XObj (ix, ONode n))).
Proof.
  intros [PV RC] G T St Em. unfold contexted. destruct (blank_context j) eqn:B.
  { subst c0. assert (X : expands None (JObj (unread es)) (ix, ONode n)) by (apply expands_node; try assumption; rewrite Em, andb_false_r; reflexivity).
    revert X. apply ev_impl. intros k X. apply X. }
  destruct RC as (lc & CJ & PF). refine (ev_succ _ _ _ (ev_and _ _ St (ex_intro (fun N => forall n, N <= n -> 1 <= n) 1 (fun n L => L)))).
  intros m [H L]. cbn [expand_element element_body]. unfold expand_map.
  assert (EC : element_context io ld pf o base c0 None (("@context", j) :: unread es) false = Ok c).
  { unfold element_context. destruct (preliminary_ok c0 (("@context", j) :: unread es)) as [[a b] ->]. cbn [bind]. rewrite PV. cbn [prop_def bind].
    assert (N : get_all "@context" (unread es) = []).
    { apply get_all_nil. intros I. destruct (good_keys _ _ G I) as (e & _ & R). apply R. reflexivity. }
    assert (E : get_unique "@context" (("@context", j) :: unread es) = Ok (Some j)).
    { unfold get_unique. change (get_all "@context" (("@context", j) :: unread es)) with (j :: get_all "@context" (unread es)). rewrite N. reflexivity. }
    rewrite E. cbn [map_err bind]. rewrite CJ. cbn [map_err bind]. unfold xprocess. rewrite PF. reflexivity. }
  rewrite EC. cbn [bind].
  assert (XC : xkey io o c "@context" = Ok (Some (TmKw KContext))) by (unfold xkey, xiri; change "@context" with (kw_str KContext); rewrite VK, read_kw_str; reflexivity).
  assert (TE : exists ts, type_entries io o c (("@context", j) :: unread es) = Ok ts).
  { destruct (types_good _ G) as [ts Ht]. unfold type_entries in *. cbn [flat_r fst]. rewrite XC. cbn [bind]. match type of Ht with bind ?r _ = _ => destruct r as [l|] end; cbn [bind app] in *; [eauto|discriminate]. }
  destruct TE as [ts ->]. cbn [bind]. rewrite scoped_good. cbn [bind]. destruct (input_good ts) as [it ->]. cbn [bind].
  assert (EE : expand_entries io o c (("@context", j) :: unread es) = Ok (("@context", TmKw KContext, j) :: es)).
  { pose proof (entries_good _ G) as Q. unfold expand_entries in *. cbn [flat_r fst snd]. rewrite XC. cbn [bind]. rewrite Q. reflexivity. }
  rewrite EE. cbn [bind is_some andb].
  assert (X : forall k, k = KList \/ k = KSet \/ k = KValue -> last_entry k (("@context", TmKw KContext, j) :: es) = None).
  { intros k K. apply last_none. constructor; [cbn; destruct K as [->|[->| ->]]; discriminate|]. eapply Forall_impl; [|exact T]. intros e E H'. unfold node_term in E. rewrite H' in E. destruct E as (A & B' & D), K as [->|[->| ->]]; congruence. }
  rewrite !X by tauto. destruct m as [|m]; [lia|]. unfold expand_node. cbn [node_entries fold_r node_entry bind]. specialize (H (node_entries io ld fin rnd pf o (XE (S m)) m None c)).
  unfold start in H. rewrite H. cbn [bind fst snd andb]. rewrite Em, andb_false_r. reflexivity.
Qed.
Lemma remove_good es : Forall good es -> remove_key "@context" (unread es) = unread es.
Proof.
  unfold remove_key. induction 1 as [|[[k t] v] es G F IH]; [reflexivity|]. cbn [unread map filter fst snd]. destruct (streq_spec k "@context") as [E|_]; [destruct (proj2 G E)|]. cbn [negb].
  f_equal. exact IH.
Qed.
Lemma embed_good j es jv : Forall good es -> es <> [] -> embed_context rel co c j (JObj (unread es)) = Ok jv -> jv = JObj (contexted j (unread es)).
Proof.
  intros G NE. unfold embed_context. cbn [bind]. intros H. injection H as <-. unfold contexted, blank_context. rewrite (remove_good _ G). destruct es as [|e es]; [congruence|]. cbn [unread map orb].
  destruct j as [| | | |[|]|[|]]; reflexivity.
Qed.
Lemma unnamed_spec (x : iobj) g : unnamed_graph x = Some g -> exists ix, x = (ix, ONode (MkNode None None (Some g) None [] None)).
Proof.
  destruct x as [ix [v|[i ts gr inc ps rs]|l]]; try discriminate. unfold unnamed_graph, is_graph. cbn.
  destruct ts, gr, inc, ps, rs, i; cbn; try discriminate. intros E. injection E as ->. eauto.
Qed.
Lemma same_unnamed (x x' : iobj) : same_i x x' -> (forall ix g, x <> (ix, ONode (MkNode None None (Some g) None [] None))) -> unnamed_graph x' = None.
Proof.
  intros [E S] N. destruct (unnamed_graph x') as [g|] eqn:U; [|reflexivity]. destruct (unnamed_spec _ _ U) as [ix' ->]. exfalso. destruct x as [ix x]. cbn [fst snd] in *. inversion S as [|n m Sn|]; subst.
  inversion Sn as [i ts ? gr ? inc ? ps ? rs ? B1 B2 B3 B4 B5]; subst. inversion B1; inversion B2; inversion B3; inversion B5; subst. apply reordered_length in B4. destruct ps; [|discriminate]. eapply N. reflexivity.
Qed.
Lemma collection_trip n doc r : Forall (fun x => kept x /\ wf (snd x) /\ full_node x) doc ->
  flat_r (fun x : iobj => do j <- compact_object io ld rel pf co n (fst x) (snd x) c c None ; Ok (if is_null j then [] else [j])) doc = Ok r ->
  exists xs, Forall2 same_i doc xs /\ Forall2 (expands (Some "@graph")) r xs.
Proof.
  intros F. revert r. induction F as [|x doc (K & W & Fx) _ IH]; intros r H; cbn [flat_r] in H; [injection H as <-; exists []; split; constructor|].
  destruct (compact_object io ld rel pf co n (fst x) (snd x) c c None) as [j|] eqn:E; cbn [bind] in H; [|discriminate].
  match type of H with bind ?r _ = _ => destruct r as [r'|] eqn:E' end; cbn [bind] in H; [|discriminate]. injection H as <-. destruct (IH _ eq_refl) as (xs & S & X).
  assert (P : place None (Some "@graph") (snd x)) by (apply full_place; [exact Fx|discriminate]). destruct (back_expands _ _ _ _ P (object_trip n x None (Some "@graph") j K W P E)) as (x' & S' & X').
  rewrite (expands_some _ _ _ X'). exists (x' :: xs). split; constructor; assumption.
Qed.
Theorem document_trip n c0 j doc jv : reads_context c0 j -> Forall (fun x => kept x /\ wf (snd x) /\ full_node x) doc -> distinct same_i doc ->
  (forall ix g, doc <> [(ix, ONode (MkNode None None (Some g) None [] None))]) ->
  compact io ld rel pf co n c j doc = Ok jv ->
  exists doc', Forall2 same_i doc doc' /\ ev (fun k => expand io ld fin rnd pf o base k c0 jv = Ok doc').
Proof.
  intros RC F D NU H. unfold compact, compact_collection in H.
  match type of H with bind (bind ?e _) _ = _ => destruct e as [r|] eqn:E end; cbn [bind] in H; [|discriminate].
  assert (MANY : forall l, l <> [] -> r = l -> embed_context rel co c j (JArr l) = Ok jv -> exists doc', Forall2 same_i doc doc' /\ ev (fun k => expand io ld fin rnd pf o base k c0 jv = Ok doc')).
  { intros l NL -> M. destruct (collection_trip n doc l F E) as (xs & S & X). exists xs. split; [exact S|].
    unfold embed_context in M. destruct l as [|j1 l1]; [congruence|]. destruct (kkey rel co c KGraph) as [k|] eqn:KK; cbn [bind] in M; [|discriminate]. apply key_reads in KK; [|discriminate].
    assert (G : Forall good [(k, TmKw KGraph, JArr (j1 :: l1))]) by (constructor; [exact KK|constructor]).
    assert (M' : embed_context rel co c j (JObj (unread [(k, TmKw KGraph, JArr (j1 :: l1))])) = Ok jv) by (unfold embed_context; exact M).
    apply embed_good in M'; [|exact G|discriminate]. subst jv.
    assert (Fn : Forall (fun x : iobj => exists n, snd x = ONode n) doc) by (eapply Forall_impl; [|exact F]; intros x (_ & _ & y & Ey & _); eauto).
    assert (Fw : Forall (fun x : iobj => wf (snd x)) doc) by (eapply Forall_impl; [|exact F]; intros x (_ & Wx & _); exact Wx).
    assert (T : ev (fun k0 => XE k0 c0 None (JObj (contexted j (unread [(k, TmKw KGraph, JArr (j1 :: l1))]))) false = Ok (XObj (None, ONode (MkNode None None (Some xs) None [] None))))).
    { apply top_expands; [exact RC|exact G| |  |reflexivity].
      - constructor; [repeat split; discriminate|constructor].
      - apply step_graph; [discriminate|exact X|eapply same_all_nodes; eassumption|eapply same_all_wf; eassumption|eapply same_all_distinct; eassumption]. }
    revert T. apply ev_impl. intros k0 T. unfold expand. rewrite T. reflexivity. }
  destruct doc as [|x doc].
  { cbn [flat_r] in E. injection E as <-. cbn in H. injection H as <-. exists []. split; [constructor|]. exists 2. intros [|[|k]] L; try lia. unfold expand. cbn [expand_element element_body]. unfold expand_map.
    assert (EC : element_context io ld pf o base c0 None [] false = Ok c0) by (unfold element_context; cbn; rewrite (proj1 RC); reflexivity). rewrite EC. reflexivity. }
  assert (NR : r <> []).
  { destruct (collection_trip n _ r F E) as (xs & S & X). inversion S; subst. inversion X; subst. discriminate. }
  destruct r as [|j1 [|j2 r]]; [congruence| |exact (MANY (j1 :: j2 :: r) ltac:(discriminate) eq_refl H)].
  match type of H with embed_context _ _ _ _ (if ?b then _ else _) = _ => destruct b end; [exact (MANY [j1] ltac:(discriminate) eq_refl H)|]. clear MANY NR.
  destruct (collection_trip n _ [j1] F E) as (xs & S & X). inversion X as [|? x1 ? ? _ X1]; subst. inversion X1; subst. inversion S as [|? ? ? ? Sx S1]; subst. inversion S1; subst. clear S S1 X X1 Sx x1.
  inversion F as [|? ? (K & W & y & Ey & Em) _]; subst. cbn [flat_r] in E.
  destruct (compact_object io ld rel pf co n (fst x) (snd x) c c None) as [jx|] eqn:Ex; cbn [bind] in E; [|discriminate].
  destruct (full_trip n None x y jx K W Ey Em ltac:(discriminate) Ex) as (es & y' & -> & Sy & G & T & St). cbn [is_null app] in E. injection E as <-.
  assert (NE : es <> []).
  { intros ->. assert (E0 : start = (fst x, y', false)) by (destruct St as [N0 St]; specialize (St N0 (le_n _) (fun _ _ s => Ok s)); cbn in St; congruence). clear St. pose proof (same_empty _ _ Sy) as Q. unfold start in E0. injection E0 as _ <-. rewrite Em in Q. discriminate Q. }
  apply embed_good in H; [|exact G|exact NE]. subst jv. exists [(fst x, ONode y')].
  assert (SX : same_i x (fst x, ONode y')) by (split; [reflexivity|rewrite Ey; constructor; exact Sy]).
  split; [constructor; [exact SX|constructor]|]. pose proof (top_expands c0 j es (fst x) y' RC G T St ltac:(rewrite (same_empty _ _ Sy); exact Em)) as Q. revert Q. apply ev_impl.
  intros k Q. unfold expand. rewrite Q. cbn [bind items]. rewrite (same_unnamed x); [| exact SX|intros ix g ->; exact (NU ix g eq_refl)]. reflexivity.
Qed.
End Trip.

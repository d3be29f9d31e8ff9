(** Warnings: [MalformedIri] of context-processing/src/algorithm/iri.rs, and those of the loop over the keys of
    expansion/src/element.rs.  The other models leave warnings out; here the same functions are given together with the
    warnings they hand to the handler, in order.  Not modelled: [KeywordLikeValue] (define.rs), [MalformedLanguageTag]. *)
From Verif Require Import Prelude Str Keyword Enums LangTag Container ContextSyntax Ctx Process Json Object Expand.

(** ** Model *)

(** expansion/src/warning.rs 7-13 ([Warning]). *)
Inductive warning : Type := WMalformedIri (s : string) | WEmptyTerm | WBlankNodeIdProperty (b : string).

Section Warn.
Variable io : iops.

(** iri.rs 353-365 ([invalid_iri_simple]). *)
Definition invalid_iri_w (s : string) : result (option term) cerr * list string := (Ok (Some (TmId (IInvalid s))), [s]).

(** iri.rs 309-348: the last steps. *)
Definition expand_tail_w (c : actx) (s : string) (docrel : bool) (vocab : option action) : result (option term) cerr * list string :=
  let last :=
    if (docrel && iri_ref_ok io s)%bool
    then match resolve_iri io s (ac_base c) with
         | Some i => (Ok (Some (TmId (IIri i))), [])
         | None => invalid_iri_w s
         end
    else invalid_iri_w s in
  match vocab with
  | Some act =>
      match ac_vocab c with
      | Some (TmId m) => (match act with
                          | AKeep => Ok (Some (TmId (id_of_string io (id_str m +++ s))))
                          | ADrop => Ok None
                          | AReject => Err EForbiddenVocab
                          end, [])
      | Some _ => invalid_iri_w s
      | None => last
      end
  | None => last
  end.

(** iri.rs 304-306. *)
Definition expand_absolute_w (c : actx) (s : string) (docrel : bool) (vocab : option action) : result (option term) cerr * list string :=
  if iri_ok io s then (Ok (Some (TmId (IIri s))), []) else expand_tail_w c s docrel vocab.

(** iri.rs 231-351 ([expand_iri_simple]). *)
Definition expand_iri_w (c : actx) (v : nullable expandable) (docrel : bool) (vocab : option action)
  : result (option term) cerr * list string :=
  match v with
  | NNull => (Ok (Some TmNull), [])
  | NSome (XKw k) => (Ok (Some (TmKw k)), [])
  | NSome (XStr s) =>
      if is_keyword_like s then (Ok (Some TmNull), [])
      else match expand_defined c s vocab with
      | Some t => (Ok (Some t), [])
      | None =>
          if colon_inside s then
            if blank_ok io s then (Ok (Some (TmId (IBlank s))), [])
            else if streq s "_:" then (Ok (Some (TmId (IInvalid "_:"))), [])
            else match compact_iri_of io s with
                 | Some (p, x) => match expand_prefixed io c p x with
                                  | Some t => (Ok (Some t), [])
                                  | None => expand_absolute_w c s docrel vocab
                                  end
                 | None => expand_absolute_w c s docrel vocab
                 end
          else expand_tail_w c s docrel vocab
      end
  end.

(** element.rs 320-351: one turn of the loop over the keys of an element. *)
Definition key_w (o : xopts) (c : actx) (k : string) : result (option term) xerr * list warning :=
  let (r, w) := expand_iri_w c (NSome (xp_of_str k)) false (Some (xo_vocab o)) in
  (map_err (fun _ => XForbiddenVocab) r,
   (if streq k "" then [WEmptyTerm] else []) ++ map WMalformedIri w
   ++ match r with Ok (Some (TmId (IBlank b))) => [WBlankNodeIdProperty b] | _ => [] end).

(** element.rs 315-352: the loop; an error ends it, the warnings given until then remain. *)
Fixpoint entries_w (o : xopts) (c : actx) (m : jobject) : result (list xentry) xerr * list warning :=
  match m with
  | [] => (Ok [], [])
  | (k, v) :: m =>
      match key_w o c k with
      | (Err e, w) => (Err e, w)
      | (Ok t, w) =>
          let (r, w') := entries_w o c m in
          (match r with
           | Ok es => Ok (match t with Some t => (k, t, v) :: es | None => es end)
           | Err e => Err e
           end, w ++ w')
      end
  end.

(** ** Specification *)

(** Nothing in the context, and no syntax, gives a meaning to [s]; stated by itself. *)
Record meaningless (c : actx) (s : string) (docrel : bool) (vocab : option action) : Prop := {
  ml_keyword : is_keyword_like s = false;
  ml_alias : forall k, get_value c s <> Some (Some (TmKw k));
  ml_term : vocab <> None -> get_value c s = None;
  ml_vocab : vocab <> None -> forall i, ac_vocab c <> Some (TmId i);
  ml_blank : colon_inside s = true -> blank_ok io s = false;
  ml_iri : colon_inside s = true -> iri_ok io s = false;
  ml_prefix : forall p x d t, colon_inside s = true -> split_once ":" s = Some (p, x) -> p <> "_" -> starts_with "//" x = false ->
    iri_ref_ok io s = true -> get_normal c p = Some d -> nd_prefix d = true -> nd_value d = Some t -> False;
  ml_relative : docrel = true -> iri_ref_ok io s = true -> (vocab = None \/ ac_vocab c = None) ->
    ac_base c = None /\ iri_ok io s = false;
  ml_label : s <> "_:"
}.

(** The invalid identifiers that are made without a warning. *)
Inductive silent (c : actx) (s : string) (vocab : option action) : string -> Prop :=
| SilentLabel : s = "_:" -> silent c s vocab "_:"
| SilentTerm i : vocab <> None -> get_value c s = Some (Some (TmId (IInvalid i))) -> silent c s vocab i
| SilentPrefix p x d t : split_once ":" s = Some (p, x) -> get_normal c p = Some d -> nd_prefix d = true -> nd_value d = Some t ->
    iri_ok io (term_str t +++ x) = false -> blank_ok io (term_str t +++ x) = false -> silent c s vocab (term_str t +++ x)
| SilentVocab i : vocab = Some AKeep -> ac_vocab c = Some (TmId i) ->
    iri_ok io (id_str i +++ s) = false -> blank_ok io (id_str i +++ s) = false -> silent c s vocab (id_str i +++ s).

(** The names in the warnings about malformed IRIs, in order. *)
Definition malformed (w : list warning) : list string := flat_map (fun x => match x with WMalformedIri s => [s] | _ => [] end) w.

(** ** Lemmas *)

Lemma tail_erase c s dr vo : fst (expand_tail_w c s dr vo) = expand_tail io c s dr vo.
Proof.
  unfold expand_tail_w, expand_tail, invalid_iri_w. destruct vo as [a|]; [destruct (ac_vocab c) as [[|i|k]|]; try reflexivity|];
    (destruct (dr && iri_ref_ok io s)%bool; [destruct (resolve_iri io s (ac_base c)); reflexivity|reflexivity]).
Qed.
Lemma iri_erase c v dr vo : fst (expand_iri_w c v dr vo) = expand_iri_simple io c v dr vo.
Proof.
  destruct v as [|[k|s]]; try reflexivity. cbn [expand_iri_w expand_iri_simple].
  destruct (is_keyword_like s); [reflexivity|]. destruct (expand_defined c s vo); [reflexivity|].
  assert (A : fst (expand_absolute_w c s dr vo) = expand_absolute io c s dr vo)
    by (unfold expand_absolute_w, expand_absolute; destruct (iri_ok io s); [reflexivity|apply tail_erase]).
  destruct (colon_inside s); [|apply tail_erase]. destruct (blank_ok io s); [reflexivity|]. destruct (streq s "_:"); [reflexivity|].
  destruct (compact_iri_of io s) as [[p x]|]; [|exact A]. destruct (expand_prefixed io c p x); [reflexivity|exact A].
Qed.
Lemma key_erase o c k : fst (key_w o c k) = xkey io o c k.
Proof.
  unfold key_w, xkey, xiri. pose proof (iri_erase c (NSome (xp_of_str k)) false (Some (xo_vocab o))) as E.
  destruct (expand_iri_w _ _ _ _) as [r w]. cbn [fst] in *. rewrite <- E. destruct r; reflexivity.
Qed.
Lemma entries_erase o c m : fst (entries_w o c m) = expand_entries io o c m.
Proof.
  induction m as [|[k v] m IH]; [reflexivity|]. cbn [entries_w]. unfold expand_entries in *. cbn [flat_r fst snd].
  pose proof (key_erase o c k) as E. destruct (key_w o c k) as [[t|e] w]; cbn [fst] in E; rewrite <- E; cbn [bind]; [|reflexivity].
  destruct (entries_w o c m) as [r w']. cbn [fst] in *. rewrite <- IH. destruct r; [destruct t|]; reflexivity.
Qed.

Lemma defined_none c s vo : expand_defined c s vo = None <->
  (forall k, get_value c s <> Some (Some (TmKw k))) /\ (vo <> None -> get_value c s = None).
Proof.
  unfold expand_defined. destruct (get_value c s) as [[[|i|k]|]|]; destruct vo as [a|]; split; intros H; try discriminate H; try reflexivity;
    try (split; [intros k' X; discriminate X|intros X; congruence]); destruct H as [H1 H2]; exfalso;
    try (specialize (H2 ltac:(discriminate)); discriminate H2); exact (H1 _ eq_refl).
Qed.
Lemma compact_iff s p x : compact_iri_of io s = Some (p, x) <->
  split_once ":" s = Some (p, x) /\ p <> "_" /\ starts_with "//" x = false /\ iri_ref_ok io s = true.
Proof.
  unfold compact_iri_of. destruct (split_once ":" s) as [[p' x']|]; [|split; [discriminate|intros [H _]; discriminate H]].
  destruct (streq_spec p' "_") as [->|N]; cbn [negb andb].
  - split; [discriminate|]. intros (H & N & _). injection H as <- <-. congruence.
  - destruct (starts_with "//" x') eqn:S; cbn [negb andb].
    + split; [discriminate|]. intros (H & _ & S' & _). injection H as <- <-. congruence.
    + destruct (iri_ref_ok io s).
      * split; [intros H; injection H as <- <-; auto|intros (H & _); exact H].
      * split; [discriminate|intros (_ & _ & _ & H); discriminate H].
Qed.

Lemma tail_warned c s dr vo : (vo <> None -> forall i, ac_vocab c <> Some (TmId i)) ->
  (dr = true -> iri_ref_ok io s = true -> (vo = None \/ ac_vocab c = None) -> ac_base c = None /\ iri_ok io s = false) ->
  expand_tail_w c s dr vo = invalid_iri_w s.
Proof.
  intros V R. unfold expand_tail_w.
  assert (L : (vo = None \/ ac_vocab c = None) -> (if (dr && iri_ref_ok io s)%bool
    then match resolve_iri io s (ac_base c) with Some i => (Ok (Some (TmId (IIri i))), []) | None => invalid_iri_w s end
    else invalid_iri_w s) = invalid_iri_w s).
  { intros K. destruct dr, (iri_ref_ok io s); try reflexivity. destruct (R eq_refl eq_refl K) as [B I]. cbn [andb]. unfold resolve_iri. rewrite B, I. reflexivity. }
  destruct vo as [a|]; [|apply L; auto]. destruct (ac_vocab c) as [[|i|k]|] eqn:E; try reflexivity; [|apply L; auto].
  exfalso. exact (V ltac:(discriminate) i eq_refl).
Qed.
Lemma tail_silent c s dr vo : snd (expand_tail_w c s dr vo) <> [] ->
  (vo <> None -> forall i, ac_vocab c <> Some (TmId i)) /\
  (dr = true -> iri_ref_ok io s = true -> (vo = None \/ ac_vocab c = None) -> ac_base c = None /\ iri_ok io s = false).
Proof.
  unfold expand_tail_w. intros H. split.
  - intros V i E. destruct vo; [|congruence]. rewrite E in H. apply H. reflexivity.
  - intros -> R K. rewrite R in H. cbn [andb] in H.
    assert (X : snd (match resolve_iri io s (ac_base c) with Some i => (Ok (Some (TmId (IIri i))), []) | None => invalid_iri_w s end) <> []).
    { destruct K as [->|K]; [exact H|]. rewrite K in H. destruct vo; exact H. }
    unfold resolve_iri in X. destruct (ac_base c); [exfalso; apply X; reflexivity|]. destruct (iri_ok io s); [exfalso; apply X; reflexivity|auto].
Qed.

Lemma meaningless_warned c s dr vo : meaningless c s dr vo -> expand_iri_w c (NSome (XStr s)) dr vo = (Ok (Some (TmId (IInvalid s))), [s]).
Proof.
  intros M. cbn [expand_iri_w]. rewrite (ml_keyword _ _ _ _ M).
  rewrite (proj2 (defined_none c s vo) (conj (ml_alias _ _ _ _ M) (ml_term _ _ _ _ M))).
  pose proof (tail_warned c s dr vo (ml_vocab _ _ _ _ M) (ml_relative _ _ _ _ M)) as T.
  destruct (colon_inside s) eqn:C; [|exact T]. rewrite (ml_blank _ _ _ _ M C). destruct (streq_spec s "_:") as [E|_]; [exfalso; exact (ml_label _ _ _ _ M E)|].
  assert (A : expand_absolute_w c s dr vo = invalid_iri_w s) by (unfold expand_absolute_w; rewrite (ml_iri _ _ _ _ M C); exact T).
  destruct (compact_iri_of io s) as [[p x]|] eqn:P; [|exact A]. apply (proj1 (compact_iff s p x)) in P. destruct P as (P1 & P2 & P3 & P4).
  unfold expand_prefixed. destruct (get_normal c p) as [d|] eqn:G; [|exact A]. destruct (nd_prefix d) eqn:D; [|exact A].
  destruct (nd_value d) as [t|] eqn:V; [|exact A]. exfalso. exact (ml_prefix _ _ _ _ M p x d t C P1 P2 P3 P4 G D V).
Qed.
Lemma warned_meaningless c v dr vo : snd (expand_iri_w c v dr vo) <> [] -> exists s, v = NSome (XStr s) /\ meaningless c s dr vo.
Proof.
  destruct v as [|[k|s]]; intros H; try (exfalso; apply H; reflexivity). exists s. split; [reflexivity|]. cbn [expand_iri_w] in H.
  destruct (is_keyword_like s) eqn:K; [exfalso; apply H; reflexivity|]. destruct (expand_defined c s vo) eqn:D; [exfalso; apply H; reflexivity|].
  apply (proj1 (defined_none c s vo)) in D. destruct D as [D1 D2].
  destruct (colon_inside s) eqn:C.
  - destruct (blank_ok io s) eqn:B; [exfalso; apply H; reflexivity|]. destruct (streq_spec s "_:") as [->|L]; [exfalso; apply H; reflexivity|].
    assert (A : snd (expand_absolute_w c s dr vo) <> [] /\ (forall p x d t, split_once ":" s = Some (p, x) -> p <> "_" -> starts_with "//" x = false ->
      iri_ref_ok io s = true -> get_normal c p = Some d -> nd_prefix d = true -> nd_value d = Some t -> False)).
    { destruct (compact_iri_of io s) as [[p x]|] eqn:P.
      - unfold expand_prefixed in H. split.
        + destruct (get_normal c p) as [d|]; [|exact H]. destruct (nd_prefix d); [|exact H]. destruct (nd_value d); [exfalso; apply H; reflexivity|exact H].
        + intros p' x' d t E1 E2 E3 E4 G X V. pose proof (proj2 (compact_iff s p' x') (conj E1 (conj E2 (conj E3 E4)))) as P'.
          rewrite P in P'. injection P' as -> ->. rewrite G, X, V in H. apply H. reflexivity.
      - split; [exact H|]. intros p' x' d t E1 E2 E3 E4 _ _ _. rewrite (proj2 (compact_iff s p' x') (conj E1 (conj E2 (conj E3 E4)))) in P. discriminate P. }
    destruct A as [A P]. unfold expand_absolute_w in A. destruct (iri_ok io s) eqn:I; [exfalso; apply A; reflexivity|].
    destruct (tail_silent c s dr vo A) as [T1 T2]. constructor; try assumption; auto. intros p x d t _. apply P.
  - destruct (tail_silent c s dr vo H) as [T1 T2]. constructor; try assumption; try (intros X; rewrite C in X; discriminate X).
    + intros p x d t X. rewrite C in X. discriminate X.
    + intros ->. discriminate C.
Qed.

Lemma id_invalid s i : id_of_string io s = IInvalid i -> i = s /\ iri_ok io s = false /\ blank_ok io s = false.
Proof. unfold id_of_string. destruct (iri_ok io s); [discriminate|]. destruct (blank_ok io s); [discriminate|]. intros H. injection H as <-. auto. Qed.
Lemma tail_invalid c s dr vo i : expand_tail_w c s dr vo = (Ok (Some (TmId (IInvalid i))), []) -> silent c s vo i.
Proof.
  unfold expand_tail_w, invalid_iri_w. intros H.
  assert (L : (if (dr && iri_ref_ok io s)%bool
    then match resolve_iri io s (ac_base c) with Some i => (Ok (Some (TmId (IIri i))), []) | None => (@Ok _ cerr (Some (TmId (IInvalid s))), [s]) end
    else (Ok (Some (TmId (IInvalid s))), [s])) = (Ok (Some (TmId (IInvalid i))), []) -> silent c s vo i).
  { clear H. intros H. destruct (dr && iri_ref_ok io s)%bool; [|discriminate H]. destruct (resolve_iri io s (ac_base c)); discriminate H. }
  destruct vo as [a|]; [|exact (L H)]. destruct (ac_vocab c) as [[|m|k]|] eqn:V; try discriminate H; [|exact (L H)].
  destruct a; try discriminate H. injection H as H. apply id_invalid in H. destruct H as (-> & I & B). apply SilentVocab; auto.
Qed.
Lemma invalid_silent c s dr vo i : expand_iri_w c (NSome (XStr s)) dr vo = (Ok (Some (TmId (IInvalid i))), []) -> silent c s vo i.
Proof.
  cbn [expand_iri_w]. destruct (is_keyword_like s); [discriminate|]. destruct (expand_defined c s vo) as [t|] eqn:D.
  - intros H. injection H as ->. unfold expand_defined in D. destruct (get_value c s) as [[[|j|k]|]|] eqn:G; destruct vo as [a|]; try discriminate D.
    injection D as ->. apply SilentTerm; [discriminate|exact G].
  - destruct (colon_inside s); [|apply tail_invalid]. destruct (blank_ok io s); [discriminate|].
    destruct (streq_spec s "_:") as [->|L]; [intros H; injection H as <-; apply SilentLabel; reflexivity|].
    assert (A : expand_absolute_w c s dr vo = (Ok (Some (TmId (IInvalid i))), []) -> silent c s vo i)
      by (unfold expand_absolute_w; destruct (iri_ok io s); [discriminate|apply tail_invalid]).
    destruct (compact_iri_of io s) as [[p x]|] eqn:P; [|exact A]. apply (proj1 (compact_iff s p x)) in P. destruct P as (P & _).
    unfold expand_prefixed. destruct (get_normal c p) as [d|] eqn:G; [|exact A]. destruct (nd_prefix d) eqn:X; [|exact A].
    destruct (nd_value d) as [t|] eqn:V; [|exact A]. intros H. injection H as H. apply id_invalid in H. destruct H as (-> & I & B).
    eapply SilentPrefix; eassumption.
Qed.

(** The warnings of the keys of an element. *)
Lemma warn_list c v dr vo : snd (expand_iri_w c v dr vo) = [] \/
  exists s, v = NSome (XStr s) /\ meaningless c s dr vo /\ expand_iri_w c v dr vo = (Ok (Some (TmId (IInvalid s))), [s]).
Proof.
  destruct (snd (expand_iri_w c v dr vo)) eqn:E; [left; reflexivity|right].
  destruct (warned_meaningless c v dr vo) as (s' & -> & M); [rewrite E; discriminate|]. exists s'. split; [reflexivity|]. split; [exact M|].
  apply meaningless_warned, M.
Qed.
Lemma entries_ok_keys o c m es w : entries_w o c m = (Ok es, w) ->
  forall x, In x w <-> exists k v, In (k, v) m /\ In x (snd (key_w o c k)).
Proof.
  revert es w. induction m as [|[k v] m IH]; intros es w H x; cbn [entries_w] in H.
  - injection H as <- <-. split; [intros []|intros (k & v & [] & _)].
  - destruct (key_w o c k) as [[t|e] w1] eqn:K; [|discriminate H]. destruct (entries_w o c m) as [[es'|e] w2]; [|discriminate H].
    injection H as _ <-. specialize (IH es' w2 eq_refl x). rewrite in_app_iff, IH. split.
    + intros [I|(k' & v' & I & J)]; [exists k, v; rewrite K; cbn; auto|exists k', v'; cbn; auto].
    + intros (k' & v' & [I|I] & J); [injection I as <- <-; rewrite K in J; left; exact J|right; eauto].
Qed.
Lemma in_blank_w (r : result (option term) cerr) x :
  In x (match r with Ok (Some (TmId (IBlank b))) => [WBlankNodeIdProperty b] | _ => [] end) <->
  exists b, x = WBlankNodeIdProperty b /\ r = Ok (Some (TmId (IBlank b))).
Proof.
  split.
  - destruct r as [[[|[s|s|s]|]|]|]; try (intros []; fail). intros [<-|[]]. eauto.
  - intros (b & -> & ->). left. reflexivity.
Qed.
Lemma in_key_w o c k x : In x (snd (key_w o c k)) <->
  match x with
  | WEmptyTerm => k = ""
  | WMalformedIri s => s = k /\ kw_of_str k = None /\ meaningless c k false (Some (xo_vocab o))
  | WBlankNodeIdProperty b => expand_iri_simple io c (NSome (xp_of_str k)) false (Some (xo_vocab o)) = Ok (Some (TmId (IBlank b)))
  end.
Proof.
  unfold key_w. pose proof (iri_erase c (NSome (xp_of_str k)) false (Some (xo_vocab o))) as E.
  pose proof (warn_list c (NSome (xp_of_str k)) false (Some (xo_vocab o))) as W.
  assert (B : forall s, kw_of_str k = None -> meaningless c k false (Some (xo_vocab o)) -> s = k ->
    In s (snd (expand_iri_w c (NSome (xp_of_str k)) false (Some (xo_vocab o))))).
  { intros s N M ->. unfold xp_of_str. rewrite N, (meaningless_warned _ _ _ _ M). left. reflexivity. }
  assert (F : forall s, In s (snd (expand_iri_w c (NSome (xp_of_str k)) false (Some (xo_vocab o)))) ->
    s = k /\ kw_of_str k = None /\ meaningless c k false (Some (xo_vocab o))).
  { intros s I. destruct W as [W|(s' & W1 & M & W2)]; [rewrite W in I; destruct I|]. rewrite W2 in I. destruct I as [<-|[]].
    unfold xp_of_str in W1. destruct (kw_of_str k); [discriminate W1|]. injection W1 as <-. auto. }
  destruct (expand_iri_w c (NSome (xp_of_str k)) false (Some (xo_vocab o))) as [r w]. cbn [fst snd] in *. rewrite <- E.
  rewrite !in_app_iff, in_map_iff, in_blank_w.
  assert (T : In x (if streq k "" then [WEmptyTerm] else []) <-> x = WEmptyTerm /\ k = "").
  { destruct (streq_spec k "") as [->|N]; [|split; [intros []|intros [_ X]; congruence]]. split; [intros [<-|[]]; auto|intros [-> _]; left; reflexivity]. }
  rewrite T. clear T. destruct x as [s| |b].
  - split.
    + intros [[X _]|[(s' & X & I)|(b & X & _)]]; try discriminate X. injection X as ->. exact (F s I).
    + intros (-> & N & M). right. left. exists k. auto.
  - split; [|auto]. intros [[_ X]|[(s' & X & _)|(b & X & _)]]; try discriminate X. exact X.
  - split; [|eauto]. intros [[X _]|[(s' & X & _)|(b' & X & H)]]; try discriminate X. injection X as ->. exact H.
Qed.

Lemma malformed_app a b : malformed (a ++ b) = malformed a ++ malformed b.
Proof. unfold malformed. apply flat_map_app. Qed.
Lemma malformed_key o c k : malformed (snd (key_w o c k)) = snd (expand_iri_w c (NSome (xp_of_str k)) false (Some (xo_vocab o))).
Proof.
  unfold key_w. destruct (expand_iri_w _ _ _ _) as [r w]. cbn [snd]. rewrite !malformed_app.
  assert (A : malformed (if streq k "" then [WEmptyTerm] else []) = []) by (destruct (streq k ""); reflexivity).
  assert (B : malformed (match r with Ok (Some (TmId (IBlank b))) => [WBlankNodeIdProperty b] | _ => [] end) = [])
    by (destruct r as [[[|[s|s|s]|]|]|]; reflexivity).
  rewrite A, B, app_nil_r. cbn [app]. induction w as [|x w IH]; [reflexivity|]. exact (f_equal (cons x) IH).
Qed.
Lemma entries_malformed o c m es w : entries_w o c m = (Ok es, w) ->
  exists sel, (forall k, sel k = true <-> kw_of_str k = None /\ meaningless c k false (Some (xo_vocab o))) /\
    malformed w = filter sel (map fst m).
Proof.
  intros H. exists (fun k => match snd (expand_iri_w c (NSome (xp_of_str k)) false (Some (xo_vocab o))) with [] => false | _ => true end). split.
  - intros k. unfold xp_of_str. destruct (kw_of_str k) as [kw|]; [split; [discriminate|intros [X _]; discriminate X]|]. split.
    + intros X. split; [reflexivity|]. destruct (warned_meaningless c (NSome (XStr k)) false (Some (xo_vocab o))) as (s & E & M);
        [intros E; rewrite E in X; discriminate X|]. injection E as <-. exact M.
    + intros [_ M]. rewrite (meaningless_warned _ _ _ _ M). reflexivity.
  - revert es w H. induction m as [|[k v] m IH]; intros es w H; cbn [entries_w] in H; [injection H as _ <-; reflexivity|].
    pose proof (malformed_key o c k) as K. destruct (key_w o c k) as [[t|e] w1]; [|discriminate H]. destruct (entries_w o c m) as [[es'|e] w2]; [|discriminate H].
    injection H as _ <-. rewrite malformed_app, (IH _ _ eq_refl). cbn [snd] in K. rewrite K. cbn [map fst filter].
    destruct (warn_list c (NSome (xp_of_str k)) false (Some (xo_vocab o))) as [N|(s & E & M & N)]; rewrite N; [reflexivity|].
    unfold xp_of_str in E. destruct (kw_of_str k); [discriminate E|]. injection E as <-. reflexivity.
Qed.
End Warn.

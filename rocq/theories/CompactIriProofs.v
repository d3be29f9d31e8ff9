(** Proofs about IRI compaction. *)
From Coq Require Import Permutation Lia.
From Verif Require Import Prelude Json Str Keyword Enums LangTag LangString Container Stack ContextSyntax Ctx Inverse Object Process
  ProcessRel Cycles IriSpec CompactIri.

(** ** Specification *)
(** The context with its definitions in another order. *)
Definition with_defs (c : actx) (l : defs) : actx :=
  MkCtx (ac_orig c) (ac_base c) (ac_vocab c) (ac_lang c) (ac_dir c) (ac_prev c) l (ac_type c).
(** [k] is a compact IRI available for [var]: a prefix, a colon, and the rest of the IRI.  It must
    not be a term, or be one for [var] when no value is given. *)
Definition offered (c : actx) (var : term) (no_value : bool) (k : string) : Prop :=
  exists p d t x, In (p, d) (ac_defs c) /\ nd_prefix d = true /\ nd_value d = Some t /\
    term_str var = term_str t +++ x /\ x <> "" /\ k = p +++ ":" +++ x /\
    (assoc k (ac_defs c) = None \/ no_value = true /\ exists d', assoc k (ac_defs c) = Some d' /\ nd_value d' = Some var).
(** [a] is no longer than [b], and less in the order of bytes. *)
Definition beats (a b : string) : Prop := String.length a <= String.length b /\ String.compare a b = Lt.
(** [k] is available, and no available compact IRI beats it. *)
Definition unbeaten (c : actx) (var : term) (no_value : bool) (k : string) : Prop :=
  offered c var no_value k /\ forall k', offered c var no_value k' -> ~ beats k' k.

(** ** Strings *)
Lemma compare_trans : forall x y z, String.compare x y = Lt -> String.compare y z = Lt -> String.compare x z = Lt.
Proof.
  induction x as [|p x IH]; destruct y as [|q y], z as [|r z]; cbn; try congruence; try discriminate.
  unfold Ascii.compare. destruct (N.compare_spec (N_of_ascii p) (N_of_ascii q)) as [E|L|L]; try discriminate;
  destruct (N.compare_spec (N_of_ascii q) (N_of_ascii r)) as [E'|L'|L']; try discriminate; intros H1 H2.
  - rewrite E, E', N.compare_refl. eauto.
  - rewrite E. rewrite (proj2 (N.compare_lt_iff _ _) L'). reflexivity.
  - rewrite <- E'. rewrite (proj2 (N.compare_lt_iff _ _) L). reflexivity.
  - rewrite (proj2 (N.compare_lt_iff _ _) (N.lt_trans _ _ _ L L')). reflexivity.
Qed.
Lemma beats_trans a b c : beats a b -> beats b c -> beats a c.
Proof. intros [H1 H2] [H3 H4]. split; [lia|eapply compare_trans; eassumption]. Qed.
Lemma beats_irrefl a : ~ beats a a.
Proof. intros [_ H]. pose proof (compare_antisym a a) as X. rewrite H in X. discriminate. Qed.
Lemma beats_before a b : beats a b -> before a b.
Proof. intros [H1 H2]. unfold before. destruct (Nat.eq_dec (String.length a) (String.length b)); [right|left]; [auto|lia]. Qed.
Lemma str_lt_spec a b : str_lt a b = true <-> String.compare a b = Lt.
Proof. unfold str_lt. destruct (String.compare a b); split; congruence. Qed.
Lemma better_spec k best : better k best = true <-> best = "" \/ beats k best.
Proof.
  unfold better, beats. destruct (streq_spec best ""); cbn [orb]; [intuition|]. rewrite andb_true_iff, Nat.leb_le, str_lt_spec. intuition.
Qed.

(** ** Compact IRIs *)
Lemma colon_not_empty p x : p +++ ":" +++ x <> "".
Proof. destruct p; discriminate. Qed.
Lemma candidate_of_spec var p d k : candidate_of var (p, d) = Some k <->
  exists t x, nd_prefix d = true /\ nd_value d = Some t /\ term_str var = term_str t +++ x /\ x <> "" /\ k = p +++ ":" +++ x.
Proof.
  unfold candidate_of. cbn [fst snd]. destruct (nd_value d) as [t|]; [|split; [discriminate|intros (? & ? & _ & [=] & _)]].
  destruct (nd_prefix d); [|split; [discriminate|intros (? & ? & [=] & _)]].
  destruct (strip_prefix (term_str t) (term_str var)) as [x|] eqn:E.
  - apply strip_prefix_spec in E. destruct (streq_spec x "") as [->|N].
    + split; [discriminate|]. intros (t' & y & _ & H & H1 & H2 & _). injection H as <-. rewrite E in H1. apply app_inj_str in H1. congruence.
    + split.
      * intros H. injection H as <-. exists t, x. auto.
      * intros (t' & y & _ & H & H1 & _ & ->). injection H as <-. rewrite E in H1. apply app_inj_str in H1. subst y. reflexivity.
  - split; [discriminate|]. intros (t' & y & _ & H & H1 & _). injection H as <-. apply strip_prefix_spec in H1. congruence.
Qed.
Lemma usable_spec c var nv p x : usable c var nv (p +++ ":" +++ x) = true <->
  assoc (p +++ ":" +++ x) (ac_defs c) = None \/ nv = true /\ exists d', assoc (p +++ ":" +++ x) (ac_defs c) = Some d' /\ nd_value d' = Some var.
Proof.
  unfold usable, get_value, get_normal. destruct (streq_spec (p +++ ":" +++ x) "@type") as [E|_].
  { exfalso. assert (C : contains_char ":" (p +++ ":" +++ x) = true) by (rewrite contains_char_app; apply orb_true_r). rewrite E in C. discriminate. }
  destruct (assoc _ _) as [d|] eqn:A; cbn [option_map].
  - split.
    + intros H. apply andb_true_iff in H. destruct H as [H ->]. right. split; [reflexivity|]. exists d. split; [reflexivity|].
      destruct (nd_value d) as [t|]; [|discriminate]. destruct (term_eqb_spec t var); [congruence|discriminate].
    + intros [H|[-> (d' & H & H')]]; [discriminate|]. injection H as <-. rewrite H'. destruct (term_eqb_spec var var); [reflexivity|congruence].
  - split; auto.
Qed.

Section Fold.
Variables (c : actx) (var : term) (nv : bool).
Definition offered_by (l : defs) (k : string) : Prop := exists b, In b l /\ candidate_of var b = Some k /\ usable c var nv k = true.
Lemma fold_prefixes l : forall best,
  let r := fold_left (try_prefix c var nv) l best in
  (r = best \/ offered_by l r) /\
  (r = "" -> best = "" /\ forall k, ~ offered_by l k) /\
  (best <> "" -> r = best \/ beats r best) /\
  (forall k, offered_by l k -> ~ beats k r).
Proof.
  induction l as [|b l IH]; intros best r.
  { subst r. cbn. split; [auto|]. split; [intros ->; split; [reflexivity|intros k (? & [] & _)]|]. split; [auto|]. intros k (? & [] & _). }
  cbn [fold_left] in r. specialize (IH (try_prefix c var nv best b)). fold r in IH. cbv zeta in IH. destruct IH as (I1 & I2 & I3 & I4).
  assert (NE : forall k, offered_by (b :: l) k -> k <> "").
  { intros k ([p d] & _ & E & _). apply candidate_of_spec in E. destruct E as (t & x & _ & _ & _ & _ & ->). apply colon_not_empty. }
  assert (L : forall k, offered_by l k -> offered_by (b :: l) k) by (intros k (b' & H & H'); exists b'; split; [right; exact H|exact H']).
  assert (C : offered_by (b :: l) (try_prefix c var nv best b) /\ (best = "" \/ beats (try_prefix c var nv best b) best) \/
    try_prefix c var nv best b = best /\ (forall k, candidate_of var b = Some k -> usable c var nv k = true -> best <> "" /\ ~ beats k best)).
  { unfold try_prefix. destruct (candidate_of var b) as [k|] eqn:E; [|right; split; [reflexivity|discriminate]].
    destruct (better k best) eqn:B; cbn [andb].
    - destruct (usable c var nv k) eqn:U; [|right; split; [reflexivity|]; intros k' H; injection H as <-; congruence].
      left. split; [exists b; split; [left; reflexivity|auto]|]. apply better_spec, B.
    - right. split; [reflexivity|]. intros k' H _. injection H as <-.
      split; [intros ->; discriminate B|]. intros X. assert (better k best = true) by (apply better_spec; auto). congruence. }
  destruct C as [[C1 C2]|[C1 C2]].
  - assert (N := NE _ C1). assert (R : r <> "").
    { intros E. destruct (I2 E) as [X _]. contradiction. }
    split; [right; destruct I1 as [->|H]; [exact C1|apply L, H]|]. split; [intros E; contradiction|]. split.
    + intros NB. right. destruct C2 as [->|C2]; [congruence|]. destruct (I3 N) as [->|H]; [exact C2|eapply beats_trans; eassumption].
    + intros k (b' & [<-|Hb] & H1 & H2); [|apply I4; exists b'; auto].
      intros X. destruct C1 as (b0 & _ & H3 & H4).
      assert (E : try_prefix c var nv best b = k \/ ~ beats k (try_prefix c var nv best b)).
      { clear - H1 H2 C2. unfold try_prefix in *. rewrite H1 in *. destruct (better k best) eqn:B; rewrite H2 in *; cbn [andb] in *; [left; reflexivity|right].
        intros X. assert (better k best = true) by (apply better_spec; auto). congruence. }
      destruct E as [E|E].
      * rewrite E in *. destruct (I3 N) as [E'|H]; [rewrite E' in X; exact (beats_irrefl _ X)|exact (beats_irrefl _ (beats_trans _ _ _ X H))].
      * destruct (I3 N) as [E'|H]; [rewrite E' in X; contradiction|]. apply E. eapply beats_trans; eassumption.
  - rewrite C1 in *. split; [destruct I1 as [H|H]; [left; exact H|right; apply L, H]|]. split; [|split; [exact I3|]].
    + intros E. destruct (I2 E) as [E' H]. split; [exact E'|]. intros k (b' & [<-|Hb] & H1 & H2); [destruct (C2 _ H1 H2); contradiction|].
      eapply H. exists b'. eauto.
    + intros k (b' & [<-|Hb] & H1 & H2); [|apply I4; exists b'; auto].
      destruct (C2 _ H1 H2) as [N X]. intros Y. destruct (I3 N) as [E'|H]; [rewrite E' in Y; contradiction|]. apply X. eapply beats_trans; eassumption.
Qed.
Lemma offered_by_spec k : offered_by (ac_defs c) k <-> offered c var nv k.
Proof.
  split.
  - intros ([p d] & I & E & U). apply candidate_of_spec in E. destruct E as (t & x & H1 & H2 & H3 & H4 & ->). apply usable_spec in U.
    exists p, d, t, x. auto 8.
  - intros (p & d & t & x & I & H1 & H2 & H3 & H4 & -> & U). exists (p, d). split; [exact I|]. split; [apply candidate_of_spec; exists t, x; auto|apply usable_spec, U].
Qed.
Lemma by_prefixes_none : by_prefixes c var nv = "" <-> forall k, ~ offered c var nv k.
Proof.
  destruct (fold_prefixes (ac_defs c) "") as (I1 & I2 & _ & _). fold (by_prefixes c var nv) in *. split.
  - intros E k H. apply offered_by_spec in H. destruct (I2 E) as [_ X]. exact (X k H).
  - intros H. destruct I1 as [E|E]; [exact E|]. apply offered_by_spec in E. exfalso. exact (H _ E).
Qed.
Lemma by_prefixes_unbeaten : by_prefixes c var nv <> "" -> unbeaten c var nv (by_prefixes c var nv).
Proof.
  intros N. destruct (fold_prefixes (ac_defs c) "") as (I1 & _ & _ & I4). fold (by_prefixes c var nv) in *. split.
  - destruct I1 as [E|E]; [contradiction|apply offered_by_spec, E].
  - intros k' H. apply I4, offered_by_spec, H.
Qed.
Lemma offered_not_empty k : offered c var nv k -> k <> "".
Proof. intros (p & d & t & x & _ & _ & _ & _ & _ & -> & _). apply colon_not_empty. Qed.
End Fold.

(** ** The order of the definitions *)
Section Order.
Variables (c : actx) (l : defs).
Hypothesis HN : NoDup (map fst (ac_defs c)).
Hypothesis HP : Permutation (ac_defs c) l.
Lemma perm_assoc k : assoc k l = assoc k (ac_defs c).
Proof.
  assert (HN' : NoDup (map fst l)) by (eapply Permutation_NoDup; [apply Permutation_map, HP|exact HN]).
  destruct (assoc k (ac_defs c)) as [d|] eqn:A.
  - apply assoc_In_nodup; [exact HN'|]. eapply Permutation_in; [exact HP|apply assoc_Some_In, A].
  - apply assoc_None_notin. intros I. apply assoc_None_notin in A. apply A. unfold keys in *. eapply Permutation_in; [apply Permutation_sym, Permutation_map, HP|exact I].
Qed.
Lemma perm_get_value k : get_value (with_defs c l) k = get_value c k.
Proof. unfold get_value, get_normal. cbn [ac_type ac_defs with_defs]. rewrite perm_assoc. reflexivity. Qed.
Lemma perm_offered var nv k : offered (with_defs c l) var nv k <-> offered c var nv k.
Proof.
  unfold offered. cbn [ac_defs with_defs]. split; intros (p & d & t & x & I & H); exists p, d, t, x; rewrite perm_assoc in *; (split; [|exact H]).
  - eapply Permutation_in; [apply Permutation_sym, HP|exact I].
  - eapply Permutation_in; [exact HP|exact I].
Qed.
Lemma perm_unbeaten var nv k : unbeaten (with_defs c l) var nv k <-> unbeaten c var nv k.
Proof. unfold unbeaten. rewrite perm_offered. split; intros [H1 H2]; (split; [exact H1|]); intros k' H; apply H2, perm_offered, H. Qed.
Lemma perm_prefixes var nv : (forall k k', unbeaten c var nv k -> unbeaten c var nv k' -> k = k') -> by_prefixes (with_defs c l) var nv = by_prefixes c var nv.
Proof.
  intros U. destruct (string_dec (by_prefixes c var nv) "") as [E|E].
  - rewrite E. apply by_prefixes_none. intros k H. rewrite perm_offered in H. rewrite by_prefixes_none in E. exact (E k H).
  - destruct (string_dec (by_prefixes (with_defs c l) var nv) "") as [E'|E'].
    + exfalso. rewrite by_prefixes_none in E'. apply E, by_prefixes_none. intros k H. apply (E' k), perm_offered, H.
    + apply U; [apply perm_unbeaten, by_prefixes_unbeaten, E'|apply by_prefixes_unbeaten, E].
Qed.
Lemma perm_select v cs s : select (inverse_of (with_defs c l)) v cs s = select (inverse_of c) v cs s.
Proof.
  apply select_same; [|reflexivity|reflexivity]. intros k d. cbn [ac_defs with_defs].
  split; apply Permutation_in; [apply Permutation_sym, HP|exact HP].
Qed.
End Order.

(** An unbeaten compact IRI is the one chosen when its prefix comes first. *)
Lemma unbeaten_chosen c var nv k : NoDup (map fst (ac_defs c)) -> unbeaten c var nv k ->
  exists l, Permutation (ac_defs c) l /\ by_prefixes (with_defs c l) var nv = k.
Proof.
  intros HN [H1 H2]. assert (H := H1). apply offered_by_spec in H. destruct H as (b & I & E & U). destruct (in_split _ _ I) as (l1 & l2 & El).
  exists (b :: l1 ++ l2). assert (HP : Permutation (ac_defs c) (b :: l1 ++ l2)) by (rewrite El; apply Permutation_sym, Permutation_middle).
  split; [exact HP|]. unfold by_prefixes. cbn [ac_defs with_defs fold_left].
  assert (T : try_prefix (with_defs c (b :: l1 ++ l2)) var nv "" b = k).
  { unfold try_prefix. rewrite E. assert (usable (with_defs c (b :: l1 ++ l2)) var nv k = true) as ->; [|reflexivity].
    unfold usable in *. rewrite (perm_get_value c _ HN HP). exact U. }
  rewrite T. destruct (fold_prefixes (with_defs c (b :: l1 ++ l2)) var nv (l1 ++ l2) k) as (_ & _ & I3 & I4).
  assert (N : k <> "") by (eapply offered_not_empty, H1). destruct (I3 N) as [X|X]; [exact X|]. exfalso.
  destruct (fold_prefixes (with_defs c (b :: l1 ++ l2)) var nv (l1 ++ l2) k) as ([Y|Y] & _ & _ & _); [rewrite Y in X; exact (beats_irrefl _ X)|].
  eapply H2; [|exact X]. apply (perm_offered c _ HN HP), offered_by_spec. destruct Y as (b' & Hb & Y). exists b'. split; [right; exact Hb|exact Y].
Qed.

(** ** The whole function *)
Definition entry_of (c : actx) (var : term) : bool := is_some (get_by term_eqb var (inverse_of c)).
Section Whole.
Variable rel : string -> string -> string.

Lemma body_selected av c m var value vocab rev k : compact_body rel av c m var value vocab rev = Ok (Some k) ->
  var <> TmNull /\
  ((vocab = true /\ exists cs s, select (inverse_of c) var cs s = Some k) \/
   (vocab = true /\ by_vocab c var = Some k) \/
   (vocab = true -> by_vocab c var = None) /\ compact_tail rel c var (negb (is_some value)) vocab = Ok (Some k)).
Proof.
  unfold compact_body. intros H.
  assert (NN : var <> TmNull) by (intros ->; discriminate). split; [exact NN|].
  assert (H' : (do k <- (if vocab then
                 match get_by term_eqb var (inverse_of c) with
                 | Some d => do s <- selection_of av c value rev ; Ok (d_select d (containers c m value rev) s)
                 | None => Ok None
                 end
               else Ok None) ;
      match k with
      | Some k => Ok (Some k)
      | None => match (if vocab then by_vocab c var else None) with
                | Some k => Ok (Some k)
                | None => compact_tail rel c var (negb (is_some value)) vocab
                end
      end) = Ok (Some k)) by (destruct var; [congruence|exact H|exact H]). clear H.
  assert (TL : (match (if vocab then by_vocab c var else None) with Some k => Ok (Some k) | None => compact_tail rel c var (negb (is_some value)) vocab end) = Ok (Some k) ->
     (vocab = true /\ by_vocab c var = Some k) \/
     (vocab = true -> by_vocab c var = None) /\ compact_tail rel c var (negb (is_some value)) vocab = Ok (Some k)).
  { destruct vocab; [|right; split; [discriminate|assumption]]. destruct (by_vocab c var) as [x|]; [left; split; congruence|right; auto]. }
  destruct vocab; [|right; apply TL; exact H'].
  destruct (get_by term_eqb var (inverse_of c)) as [d|] eqn:G; cbn [bind] in H'; [|right; apply TL; exact H'].
  destruct (selection_of av c value rev) as [s|]; cbn [bind] in H'; [|discriminate].
  destruct (d_select d (containers c m value rev) s) as [x|] eqn:S; [|right; apply TL; exact H'].
  left. split; [reflexivity|]. exists (containers c m value rev), s. unfold select. rewrite G. congruence.
Qed.
Lemma tail_cases c var nv vocab k : compact_tail rel c var nv vocab = Ok (Some k) ->
  (unbeaten c var nv k) \/
  (forall k', ~ offered c var nv k') /\
   match term_as_iri var with
   | Some s => get_value c (scheme_of s) = None /\
       match (if vocab then None else ac_base c) with
       | Some b => k = disambiguate_keyword (rel s b)
       | None => k = s
       end
   | None => k = term_str var
   end.
Proof.
  unfold compact_tail. destruct (streq_spec (by_prefixes c var nv) "") as [E|E]; cbn [negb].
  - intros H. right. split; [apply by_prefixes_none, E|]. destruct (term_as_iri var) as [s|]; [|congruence].
    destruct (get_value c (scheme_of s)); cbn [is_some] in H; [discriminate|]. split; [reflexivity|]. destruct vocab; [congruence|]. destruct (ac_base c); congruence.
  - intros H. injection H as <-. left. apply by_prefixes_unbeaten, E.
Qed.
End Whole.

(** ** The result and the order of the definitions *)
(** At most one compact IRI is available, or one beats all the others. *)
Definition decided (c : actx) (var : term) (no_value : bool) : Prop :=
  (forall k, ~ offered c var no_value k) \/
  exists k0, offered c var no_value k0 /\ forall k, offered c var no_value k -> k = k0 \/ beats k0 k.
Lemma decided_unique c var nv : decided c var nv -> forall k k', unbeaten c var nv k -> unbeaten c var nv k' -> k = k'.
Proof.
  intros [H|(k0 & H0 & H)] k k' [U1 U2] [V1 V2]; [destruct (H _ U1)|].
  destruct (H _ U1) as [->|B]; [|destruct (U2 _ H0 B)]. destruct (H _ V1) as [->|B]; [reflexivity|destruct (V2 _ H0 B)].
Qed.
(** A chosen compact IRI is the one whose prefix comes first, or beats it. *)
Lemma offered_chosen c var nv k : NoDup (map fst (ac_defs c)) -> offered c var nv k ->
  exists l, Permutation (ac_defs c) l /\ (by_prefixes (with_defs c l) var nv = k \/ beats (by_prefixes (with_defs c l) var nv) k).
Proof.
  intros HN H1. assert (H := H1). apply offered_by_spec in H. destruct H as (b & I & E & U). destruct (in_split _ _ I) as (l1 & l2 & El).
  exists (b :: l1 ++ l2). assert (HP : Permutation (ac_defs c) (b :: l1 ++ l2)) by (rewrite El; apply Permutation_sym, Permutation_middle).
  split; [exact HP|]. unfold by_prefixes. cbn [ac_defs with_defs fold_left].
  assert (T : try_prefix (with_defs c (b :: l1 ++ l2)) var nv "" b = k).
  { unfold try_prefix. rewrite E. assert (usable (with_defs c (b :: l1 ++ l2)) var nv k = true) as ->; [|reflexivity].
    unfold usable in *. rewrite (perm_get_value c _ HN HP). exact U. }
  rewrite T. destruct (fold_prefixes (with_defs c (b :: l1 ++ l2)) var nv (l1 ++ l2) k) as (_ & _ & I3 & _). apply I3. eapply offered_not_empty, H1.
Qed.
Lemma same_decided c var nv : NoDup (map fst (ac_defs c)) ->
  (forall l, Permutation (ac_defs c) l -> by_prefixes (with_defs c l) var nv = by_prefixes c var nv) -> decided c var nv.
Proof.
  intros HN H. destruct (string_dec (by_prefixes c var nv) "") as [E|E]; [left; apply by_prefixes_none, E|].
  right. destruct (by_prefixes_unbeaten _ _ _ E) as [U1 U2]. exists (by_prefixes c var nv). split; [exact U1|].
  intros k Hk. destruct (offered_chosen c var nv k HN Hk) as (l & HP & X). rewrite (H l HP) in X. destruct X; auto.
Qed.

Lemma get_by_inverse lang dir v l : forall r, is_some (get_by term_eqb v (fold_left (add_binding lang dir) l r)) = true <->
  is_some (get_by term_eqb v r) = true \/ exists k d, In (k, Some d) l /\ nd_value d = Some v.
Proof.
  induction l as [|b l IH]; intros r; cbn [fold_left].
  - split; [auto|]. intros [H|(k & d & [] & _)]. exact H.
  - rewrite IH. assert (B : is_some (get_by term_eqb v (add_binding lang dir r b)) = true <->
      is_some (get_by term_eqb v r) = true \/ exists d, snd b = Some d /\ nd_value d = Some v).
    { destruct b as [t [d|]]; cbn [add_binding snd].
      - destruct (nd_value d) as [v'|] eqn:V; [|split; [auto|intros [H|(d' & H & H')]; [exact H|congruence]]].
        rewrite (get_update term_eqb (reflect_sym _ term_eqb_spec) (reflect_trans _ term_eqb_spec)).
        destruct (term_eqb_spec v v') as [<-|N]; [split; [intros _; right; eauto|reflexivity]|].
        split; [auto|]. intros [H|(d' & H & H')]; [exact H|congruence].
      - split; [auto|]. intros [H|(d' & H & _)]; [exact H|discriminate]. }
    rewrite B. clear B. split.
    + intros [[H|(d & H & H')]|(k & d & H & H')]; [auto|right; exists (fst b), d; split; [left; destruct b; cbn in *; congruence|exact H']|right; exists k, d; split; [right; exact H|exact H']].
    + intros [H|(k & d & [H|H] & H')]; [auto|left; right; exists d; subst b; auto|right; eauto].
Qed.
Lemma entry_spec c v : is_some (get_by term_eqb v (inverse_of c)) = true <-> exists k d, In (k, d) (ac_defs c) /\ nd_value d = Some v.
Proof.
  unfold inverse_of. rewrite get_by_inverse. cbn. split.
  - intros [H|(k & d & H & H')]; [discriminate|]. exists k, d. split; [|exact H']. rewrite sort_in in H. unfold bindings in H.
    apply in_app_or in H. destruct H as [H|H]; [destruct (ac_type c); [destruct H as [H|[]]; discriminate|destruct H]|].
    apply in_map_iff in H. destruct H as ([k' d'] & E & H). injection E as <- <-. exact H.
  - intros (k & d & H & H'). right. exists k, d. split; [|exact H']. apply sort_in. unfold bindings. apply in_or_app. right. apply in_map_iff. exists (k, d). auto.
Qed.

Section WholeOrder.
Variable rel : string -> string -> string.
Variables (c : actx) (l : defs).
Hypothesis HN : NoDup (map fst (ac_defs c)).
Hypothesis HP : Permutation (ac_defs c) l.
Lemma perm_entry v : is_some (get_by term_eqb v (inverse_of (with_defs c l))) = is_some (get_by term_eqb v (inverse_of c)).
Proof.
  apply eq_true_iff_eq. rewrite !entry_spec. cbn [ac_defs with_defs]. split; intros (k & d & H & H'); exists k, d; (split; [|exact H']).
  - eapply Permutation_in; [apply Permutation_sym, HP|exact H].
  - eapply Permutation_in; [exact HP|exact H].
Qed.
Lemma perm_tail var nv vocab : decided c var nv -> compact_tail rel (with_defs c l) var nv vocab = compact_tail rel c var nv vocab.
Proof.
  intros D. unfold compact_tail. rewrite (perm_prefixes c l HN HP _ _ (decided_unique _ _ _ D)).
  destruct (term_as_iri var) as [s|]; [|reflexivity]. rewrite (perm_get_value c l HN HP). reflexivity.
Qed.
Lemma perm_vocab var : by_vocab (with_defs c l) var = by_vocab c var.
Proof. unfold by_vocab. cbn [ac_vocab with_defs]. destruct (ac_vocab c); [|reflexivity]. destruct (strip_prefix _ _); [|reflexivity]. rewrite (perm_get_value c l HN HP). reflexivity. Qed.
Lemma selection_ext av av' (value : option iobj) rev :
  (forall i, match value with Some (_, o) => o_id o | None => None end = Some i -> av i = av' i) ->
  selection_of av (with_defs c l) value rev = selection_of av' c value rev.
Proof.
  intros HA. unfold selection_of. change (prefer (with_defs c l) value rev) with (prefer c value rev).
  destruct (snd (fst (prefer c value rev))) as [[t|t]|]; [|destruct value as [[ix [v|n|[|y ys]]]|]; reflexivity..].
  destruct value as [[ix [v|n|[|y ys]]]|]; try reflexivity; destruct t as [| |[]]; try reflexivity.
  all: cbn [o_id] in *; destruct (n_id n) as [i|]; [rewrite (HA i eq_refl)|]; reflexivity.
Qed.
Lemma perm_body av av' m var (value : option iobj) vocab rev :
  (forall i, match value with Some (_, o) => o_id o | None => None end = Some i -> av i = av' i) -> decided c var (negb (is_some value)) ->
  compact_body rel av (with_defs c l) m var value vocab rev = compact_body rel av' c m var value vocab rev.
Proof.
  intros HA D. unfold compact_body. destruct var as [|i|k]; [reflexivity| |].
  all: rewrite perm_vocab, (perm_tail _ _ vocab D).
  all: pose proof (selection_ext av av' value rev HA) as S.
  all: destruct vocab; [|reflexivity]; rewrite S; change (containers (with_defs c l) m value rev) with (containers c m value rev).
  all: match goal with |- context [get_by term_eqb ?v (inverse_of c)] => pose proof (perm_entry v) as EN; pose proof (fun cs s => perm_select c l HP v cs s) as SE end.
  all: unfold select in SE; destruct (get_by _ _ (inverse_of (with_defs c l))) as [d|], (get_by _ _ (inverse_of c)) as [d'|]; try discriminate EN; [|reflexivity].
  all: destruct (selection_of av' c value rev) as [s|]; [|reflexivity]; cbn [bind]; rewrite SE; reflexivity.
Qed.
Lemma perm_compact m var (value : option iobj) vocab rev : decided c var (negb (is_some value)) ->
  (forall ix n i, value = Some (ix, ONode n) -> n_id n = Some i -> decided c (TmId i) true) ->
  compact_iri_full rel (with_defs c l) m var value vocab rev = compact_iri_full rel c m var value vocab rev.
Proof.
  intros D DI. unfold compact_iri_full. apply perm_body; [|exact D]. intros i Hi. unfold as_vocab, compact_iri.
  rewrite (perm_body (fun _ => Ok false) (fun _ => Ok false)); [| |].
  - destruct (compact_body _ _ _ _ _ _ _ _) as [[k|]|]; cbn [bind]; [|reflexivity|reflexivity]. rewrite (perm_get_value c l HN HP). reflexivity.
  - reflexivity.
  - destruct value as [[ix [v|n|ys]]|]; try discriminate. eapply DI; [reflexivity|exact Hi].
Qed.
End WholeOrder.

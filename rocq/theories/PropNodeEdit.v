(** C90: editing the properties of a node. *)
From Verif Require Import Prelude Json Enums LangTag LangString Str Keyword Container ContextSyntax Ctx Object ObjectEq ObjectJson Flatten FlattenEffect NodeEdit NodeEditProofs.

(** For every history of edits and every property there is a last edit to forget it, or none. *)
Theorem C90_lately : forall A (k : id) (h : list (edit A)), exists r, lately k h r.
Proof. intros. apply lately_exists. Qed.
Print Assumptions C90_lately.

(** After any history the values of a property are those offered for it since it was last
    forgotten, in order, without the ones offered only if new and equivalent to one taken before. *)
Theorem C90_values : forall A eqv (h : list (edit A)) k r, lately k h r ->
  exists flags, taken eqv (flat_map (offers k) r) flags /\ p_get k (run_edits eqv h) = selected (flat_map (offers k) r) flags.
Proof.
  intros A eqv h k r L. destruct (lately_run eqv k h r L) as [E _]. destruct (take_taken eqv (flat_map (offers k) r)) as (f & T & S).
  exists f. split; [exact T|congruence].
Qed.
Print Assumptions C90_values.

(** There is no choice in this. *)
Theorem C90_determined : forall A (eqv : A -> A -> bool) l f g, taken eqv l f -> taken eqv l g -> f = g.
Proof.
  intros A eqv l f g [Lf Tf] [Lg Tg].
  assert (H : forall i, i < length l -> nth_error f i = nth_error g i).
  { intros i. induction i as [i IH] using lt_wf_ind. intros I.
    destruct (nth_error l i) as [[u v]|] eqn:E; [|apply nth_error_None in E; lia].
    specialize (Tf i u v E). specialize (Tg i u v E).
    assert (X : nth_error f i = Some false <-> nth_error g i = Some false).
    { rewrite Tf, Tg. split; intros [U (j & u' & w & J & A1 & A2 & A3)]; (split; [exact U|]); exists j, u', w; repeat split; auto; [rewrite <- IH|rewrite IH]; auto; lia. }
    destruct (nth_error f i) as [[]|] eqn:Fi; [|apply proj1 in X; rewrite X; reflexivity|apply nth_error_None in Fi; lia].
    destruct (nth_error g i) as [[]|] eqn:Gi; [reflexivity|apply proj2 in X; rewrite X; reflexivity|apply nth_error_None in Gi; lia]. }
  clear Tf Tg. revert g Lg H. revert l Lf. induction f as [|a f IH]; intros [|x l] Lf [|b g] Lg H; try discriminate; [reflexivity|].
  f_equal.
  - specialize (H 0). cbn in H. injection H; [auto|lia].
  - apply (IH l); [cbn in *; lia|cbn in *; lia|]. intros i I. apply (H (S i)). cbn. lia.
Qed.
Print Assumptions C90_determined.

(** Histories of plain insertions lose nothing. *)
Theorem C90_plain : forall A eqv (h : list (edit A)) k r, lately k h r -> Forall (fun o => fst o = false) (flat_map (offers k) r) ->
  p_get k (run_edits eqv h) = map snd (flat_map (offers k) r).
Proof.
  intros A eqv h k r L F. destruct (lately_run eqv k h r L) as [E _]. rewrite E. clear E L.
  assert (X : flat_map (offers k) r = map (pair false) (map snd (flat_map (offers k) r))).
  { induction F as [|[u v] l U F IH]; cbn in *; [reflexivity|]. subst u. f_equal. exact IH. }
  rewrite X, take_false, map_map. cbn. rewrite map_id. reflexivity.
Qed.
Print Assumptions C90_plain.

(** Histories of unique insertions never leave two equivalent values. *)
Theorem C90_unique : forall A eqv (h : list (edit A)) k r, lately k h r -> Forall (fun o => fst o = true) (flat_map (offers k) r) ->
  ForallOrdPairs (fun x y => eqv x y = false) (p_get k (run_edits eqv h)).
Proof. intros A eqv h k r L F. destruct (lately_run eqv k h r L) as [E _]. rewrite E. apply take_unique, F. Qed.
Print Assumptions C90_unique.

(** [contains] tells whether the property was mentioned since it was last forgotten. *)
Theorem C90_contains : forall A eqv (h : list (edit A)) k r, lately k h r ->
  (p_contains k (run_edits eqv h) = true <-> Exists (mentions k) r).
Proof. intros A eqv h k r L. apply (lately_run eqv k h r L). Qed.
Print Assumptions C90_contains.

(** [get_any] gives the first value, [remove] returns the values. *)
Theorem C90_views : forall A eqv (h : list (edit A)) k,
  p_get_any k (run_edits eqv h) = hd_error (p_get k (run_edits eqv h)) /\
  p_removed k (run_edits eqv h) = (if p_contains k (run_edits eqv h) then Some (p_get k (run_edits eqv h)) else None) /\
  (forall q vs, In (q, vs) (run_edits eqv h) <-> p_contains q (run_edits eqv h) = true /\ vs = p_get q (run_edits eqv h)) /\
  NoDup (map fst (run_edits eqv h)).
Proof.
  intros A eqv h k. assert (D : NoDup (map fst (run_edits eqv h))) by apply run_nodup, NoDup_nil.
  unfold p_get_any, p_removed, p_contains, p_get. split; [destruct (get_id k _); reflexivity|]. split; [destruct (get_id k _); reflexivity|].
  split; [|exact D]. intros q vs. split.
  - intros I. rewrite (get_id_nodup _ _ _ D I). auto.
  - intros [H E]. destruct (get_id q (run_edits eqv h)) as [w|] eqn:G; [|discriminate]. subst. apply get_id_in, G.
Qed.
Print Assumptions C90_views.

(** The order of properties: new ones come last, unless some are removed or all cleared. *)
Definition keeps_order {A} (e : edit A) : Prop := match e with Remove _ | Clear => False | _ => True end.
Lemma put_keys {A} k f (new : list A) l : exists n, map fst (put_with k f new l) = map fst l ++ n.
Proof.
  unfold put_with. destruct (get_id k l); [exists []; rewrite change_keys, app_nil_r; reflexivity|]. exists [k]. rewrite map_app. reflexivity.
Qed.
Lemma fold_keys {A B} (f : list (id * list A) -> B -> list (id * list A)) m :
  (forall l x, exists n, map fst (f l x) = map fst l ++ n) -> forall l, exists n, map fst (fold_left f m l) = map fst l ++ n.
Proof.
  intros H. induction m as [|x m IH]; cbn; intros l; [exists []; rewrite app_nil_r; reflexivity|].
  destruct (H l x) as (n1 & E1). destruct (IH (f l x)) as (n2 & E2). exists (n1 ++ n2). rewrite E2, E1, app_assoc. reflexivity.
Qed.
Theorem C90_order : forall A eqv (h1 h2 : list (edit A)), Forall keeps_order h2 ->
  exists new, map fst (run_edits eqv (h1 ++ h2)) = map fst (run_edits eqv h1) ++ new.
Proof.
  intros A eqv h1 h2 F. unfold run_edits. rewrite fold_left_app. generalize (fold_left (apply eqv) h1 []).
  induction F as [|e h K F IH]; cbn [fold_left]; intros l; [exists []; rewrite app_nil_r; reflexivity|].
  assert (S : exists n, map fst (apply eqv l e) = map fst l ++ n).
  { destruct e; try destruct K; cbn [apply]; try apply put_keys; apply fold_keys; intros; apply put_keys. }
  destruct S as (n1 & E1). destruct (IH (apply eqv l e)) as (n2 & E2). exists (n1 ++ n2). rewrite E2, E1, app_assoc. reflexivity.
Qed.
Print Assumptions C90_order.

(** Removing a property puts the last one in its place. *)
Theorem C90_removed_order : forall A eqv (h : list (edit A)) k a,
  (forall z b, map fst (run_edits eqv h) = a ++ [k] ++ b ++ [z] -> map fst (run_edits eqv (h ++ [Remove k])) = a ++ [z] ++ b) /\
  (map fst (run_edits eqv h) = a ++ [k] -> map fst (run_edits eqv (h ++ [Remove k])) = a).
Proof.
  intros A eqv h k a. unfold run_edits. rewrite fold_left_app. cbn [fold_left apply].
  assert (D : NoDup (map fst (fold_left (apply eqv) h []))) by apply run_nodup, NoDup_nil.
  revert D a. generalize (fold_left (apply eqv) h []). intros l D.
  induction l as [|[q w] l IH]; intros a.
  - split; [intros z b E|intros E]; destruct a; discriminate.
  - inversion D as [|? ? NI D']; subst. specialize (IH D'). cbn [swap_remove map fst].
    assert (Here : id_eqb k q = true -> (forall z b, map fst l = b ++ [z] -> map fst (match rev l with [] => [] | e :: r => e :: rev r end) = z :: b) /\
      (map fst l = [] -> map fst (match rev l with [] => [] | e :: r => e :: rev r end) = [])).
    { intros _. split.
      - intros z b E. destruct (rev l) as [|e r] eqn:R; apply (f_equal (@rev _)) in R; rewrite rev_involutive in R; subst l.
        + destruct b; discriminate.
        + cbn in E. rewrite map_app in E. cbn in E. apply app_inj_tail in E. destruct E as [E1 E2]. cbn. congruence.
      - intros E. destruct l; [reflexivity|discriminate]. }
    destruct (id_eqb_spec k q) as [->|N].
    + specialize (Here eq_refl). destruct Here as [H1 H2]. split.
      * intros z b E. destruct a as [|x a]; cbn in E; [injection E as E; apply H1, E|].
        injection E as -> E. exfalso. apply NI. rewrite E. apply in_elt.
      * intros E. destruct a as [|x a]; cbn in E; [injection E as E; apply H2, E|].
        injection E as -> E. exfalso. apply NI. rewrite E. apply in_elt.
    + clear Here. split.
      * intros z b E. destruct a as [|x a]; cbn in E; injection E as -> E; [congruence|]. cbn. f_equal. exact (proj1 (IH a) z b E).
      * intros E. destruct a as [|x a]; cbn in E; injection E as -> E; [congruence|]. cbn. f_equal. exact (proj2 (IH a) E).
Qed.
Print Assumptions C90_removed_order.

(** What [equivalent] means: equal, and neither a list nor an anonymous node. *)
Definition denotes (o : obj) : Prop := match o with OVal _ => True | ONode n => n_id n <> None | OList _ => False end.
Theorem C90_equivalent : forall fin rnd x y, wf (snd x) -> wf (snd y) ->
  (equivalent fin rnd x y = true <-> same_i x y /\ denotes (snd x)).
Proof.
  intros fin rnd [i x] [j y] Wx Wy. unfold equivalent, same_i. cbn [fst snd] in *. rewrite andb_true_iff, opt_streq.
  destruct x as [v|n|l], y as [w|m|l']; cbn [denotes].
  all: try (split; [intros [_ X]; discriminate|intros [[_ X] _]; inversion X; fail]).
  - rewrite value_eqb_spec. split; [intros [E X]; repeat split; auto; constructor; exact X|intros [[E X] _]; split; [exact E|inversion X; assumption]].
  - inversion Wx; inversion Wy; subst. destruct (n_id n) eqn:N, (n_id m) eqn:M.
    + rewrite (proj2 (eqb_both fin rnd)) by assumption. split; [intros [E X]; repeat split; auto; [constructor; exact X|congruence]|].
      intros [[E X] _]. split; [exact E|inversion X; assumption].
    + split; [intros [_ X]; discriminate|]. intros [[E X] _]. inversion X as [|? ? S|]; subst. inversion S; subst. cbn in *. congruence.
    + split; [intros [_ X]; discriminate|]. intros [_ X]. congruence.
    + split; [intros [_ X]; discriminate|]. intros [_ X]. congruence.
  - split; [intros [_ Y]; discriminate|intros [_ []]].
Qed.
Print Assumptions C90_equivalent.
Theorem C90_equivalent_node : forall fin rnd x y, wf_node (snd x) -> wf_node (snd y) ->
  (equivalent_node fin rnd x y = true <-> same_in x y /\ n_id (snd x) <> None).
Proof.
  intros fin rnd [i n] [j m] Wx Wy. unfold equivalent_node, same_in. cbn [fst snd] in *. rewrite andb_true_iff, opt_streq.
  destruct (n_id n) eqn:N, (n_id m) eqn:M.
  - rewrite (proj2 (eqb_both fin rnd)) by assumption. split; [intros [E X]; repeat split; auto; congruence|intros [[E X] _]; auto].
  - split; [intros [_ X]; discriminate|]. intros [[E S] _]. inversion S; subst. cbn in *. congruence.
  - split; [intros [_ X]; discriminate|]. intros [_ X]. congruence.
  - split; [intros [_ X]; discriminate|]. intros [_ X]. congruence.
Qed.
Print Assumptions C90_equivalent_node.

(** Nodes edited in different ways are equal ([==]) exactly when they answer alike. *)
Definition with_props (n : node) (ps : list (id * list iobj)) : node := match n with MkNode i ts g inc _ rs => MkNode i ts g inc ps rs end.
Theorem C90_equal : forall fin rnd n (h1 h2 : list (edit iobj)),
  let ps1 := run_edits (equivalent fin rnd) h1 in let ps2 := run_edits (equivalent fin rnd) h2 in
  wf_node (with_props n ps1) -> wf_node (with_props n ps2) ->
  (node_eqb fin rnd (with_props n ps1) (with_props n ps2) = true <->
   forall k, p_contains k ps1 = p_contains k ps2 /\ reordered same_i (p_get k ps1) (p_get k ps2)).
Proof.
  intros fin rnd n h1 h2 ps1 ps2 W1 W2. rewrite (proj2 (eqb_both fin rnd)) by assumption.
  assert (D1 : NoDup (map fst ps1)) by apply run_nodup, NoDup_nil. assert (D2 : NoDup (map fst ps2)) by apply run_nodup, NoDup_nil.
  assert (Rn : forall l, reordered same_i l l). { intros l. apply reordered_refl, Forall_forall. intros x _. split; [reflexivity|apply same_refl]. }
  assert (Key : reordered (fun p q => fst p = fst q /\ reordered same_i (snd p) (snd q)) ps1 ps2 <->
    forall k, p_contains k ps1 = p_contains k ps2 /\ reordered same_i (p_get k ps1) (p_get k ps2)).
  { split.
    - intros S k. unfold p_contains, p_get. destruct (get_id k ps1) as [w|] eqn:G.
      + apply get_id_in in G. destruct (reordered_in _ _ _ _ S G) as ([q v] & I & E & R). cbn in E, R. subst q.
        rewrite (get_id_nodup _ _ _ D2 I). auto.
      + destruct (get_id k ps2) as [v|] eqn:G2; [|split; [reflexivity|apply Rn]]. exfalso. apply get_id_in in G2.
        apply (reordered_sym _ (fun p q => fst q = fst p /\ reordered same_i (snd q) (snd p))) in S; [|auto].
        destruct (reordered_in _ _ _ _ S G2) as ([q w] & I & E & R). cbn in E, R. subst q. rewrite (get_id_nodup _ _ _ D1 I) in G. discriminate.
    - intros H. assert (Len : forall (a b : list (id * list iobj)), NoDup (map fst a) -> (forall k, p_contains k a = true -> p_contains k b = true) -> length a <= length b).
      { intros a b Da I. rewrite <- (map_length fst a), <- (map_length fst b). apply NoDup_incl_length; [exact Da|]. intros k Ik.
        apply in_map_iff in Ik. destruct Ik as ([q v] & <- & Ik). specialize (I q). unfold p_contains in I. rewrite (get_id_nodup _ _ _ Da Ik) in I.
        destruct (get_id q b) as [w|] eqn:G; [|specialize (I eq_refl); discriminate]. apply get_id_in in G. apply (List.in_map fst) in G. exact G. }
      apply set_match.
      + intros x y [E R]. split; [congruence|]. eapply reordered_sym; [|exact R]. intros a b _ S. apply same_i_sym, S.
      + intros x y z [E R] [E' R']. split; [congruence|]. eapply reordered_trans; [|exact R|exact R']. intros a b c _ S S'. eapply same_i_trans; eassumption.
      + apply nodup_distinct, D1.
      + apply Nat.le_antisymm; apply Len; try assumption; intros k X; destruct (H k) as [E _]; congruence.
      + intros [k w] I. destruct (H k) as [E R]. unfold p_contains, p_get in E, R. rewrite (get_id_nodup _ _ _ D1 I) in E, R.
        destruct (get_id k ps2) as [v|] eqn:G; [|discriminate]. exists (k, v). split; [apply get_id_in, G|]. auto. }
  rewrite <- Key. destruct n as [i ts g inc ps rs]. cbn [with_props]. split.
  - inversion 1; subst. assumption.
  - intros S. constructor; try exact S; apply both_refl; intros x _.
    + apply reordered_refl, Forall_forall. reflexivity.
    + apply Rn.
    + apply reordered_refl, Forall_forall. intros y _. split; [reflexivity|apply same_refl_both].
    + apply reordered_refl, Forall_forall. intros y _. split; [reflexivity|]. apply reordered_refl, Forall_forall. intros z _. split; [reflexivity|apply same_refl_both].
Qed.
Print Assumptions C90_equal.

(** An example. *)
Definition ex_p : id := IIri "http://e/p".
Definition ex_q : id := IIri "http://e/q".
Definition ex_s (s : string) : iobj := (None, OVal (VLit (LStr s) None)).
Definition ex_anon : iobj := (None, ONode (MkNode None None None None [] None)).
Definition ex_hash (_ : list word) : N := 0%N.
Definition ex_history : list (edit iobj) :=
  [Insert ex_p (ex_s "lost"); InsertAll ex_q []; Remove ex_p; InsertUnique ex_p (ex_s "a"); InsertAllUnique ex_p [ex_s "a"; ex_s "b"; ex_anon; ex_anon];
   Extend [(ex_q, [ex_s "c"]); (ex_p, [ex_s "b"])]].
Example C90_example :
  run_edits (equivalent ex_hash ex_hash) ex_history =
    [(ex_q, [ex_s "c"]); (ex_p, [ex_s "a"; ex_s "b"; ex_anon; ex_anon; ex_s "b"])] /\
  lately ex_p ex_history (skipn 2 ex_history).
Proof.
  split; [vm_compute; reflexivity|]. apply (LatelySince ex_p ex_history (firstn 2 ex_history) (Remove ex_p) (skipn 3 ex_history)).
  - reflexivity.
  - right; left; reflexivity.
  - repeat constructor; intros [X|[X|(? & X)]]; discriminate.
Qed.

(** "Checks if the given property is associated to any object" (properties.rs 66): a property
    mentioned without any value is contained. *)
Theorem C90_contains_refuted : exists h : list (edit iobj), forall fin rnd,
  p_contains ex_p (run_edits (equivalent fin rnd) h) = true /\ p_get ex_p (run_edits (equivalent fin rnd) h) = [].
Proof. exists [InsertAll ex_p []]. intros. split; reflexivity. Qed.
Print Assumptions C90_contains_refuted.

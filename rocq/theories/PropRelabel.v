(** C26, C54: relabelling and identification of nodes. *)
From Verif Require Import Prelude Json Enums LangTag LangString Str Keyword Container ContextSyntax Ctx Object ObjectEq ObjectJson Relabel RelabelProofs.

(** What the types of the document guarantee: [IndexSet]s and [IndexMap]s have no duplicates. *)
Definition wf_doc (d : list iobj) : Prop := Forall (fun x => wf (snd x)) d /\ distinct same_i d.
(** A generator that never repeats. *)
Definition never_repeats (gen : nat -> id) : Prop := forall j k, gen j = gen k -> j = k.

(** The identifier given to [b] in the end. *)
Definition look (s : env) (b : string) : id := match assoc b (snd s) with Some i => i | None => IBlank b end.
Lemma assoc_app_right {A} b (m l : list (string * A)) i : NoDup (map fst (m ++ l)) -> assoc b l = Some i -> assoc b (m ++ l) = Some i.
Proof. intros N E. apply assoc_In_nodup; [exact N|]. apply in_or_app. right. apply assoc_Some_In, E. Qed.
Lemma look_ext gen s sf b i : Inv gen sf -> ext gen s sf -> assoc b (snd s) = Some i -> look sf b = i.
Proof.
  intros (_ & N & _) [_ (m & E & _)] H. unfold look. rewrite E in *. rewrite (assoc_app_right b m (snd s) i N H). reflexivity.
Qed.
Lemma assign_ren gen s i i' s' : Inv gen s -> assign_id gen s i = (i', s') ->
  (forall b, i = IBlank b -> In b (map fst (snd s'))) /\ forall sf, Inv gen sf -> ext gen s' sf -> i' = ren_id (look sf) i.
Proof.
  intros I E. destruct i as [u|b|u]; cbn [assign_id] in E; try (injection E as <- <-; split; [discriminate|reflexivity]).
  assert (H : assoc b (snd s') = Some i').
  { unfold assign in E. destruct (assoc b (snd s)) as [j|] eqn:L; injection E as <- <-; [exact L|]. cbn. rewrite streq_refl. reflexivity. }
  split.
  - intros b' X. injection X as <-. apply assoc_Some_In in H. apply (in_map fst) in H. exact H.
  - intros sf If Ef. cbn. symmetry. eapply look_ext; eassumption.
Qed.
Lemma in_ext gen s s' (b : string) : ext gen s s' -> In b (map fst (snd s)) -> In b (map fst (snd s')).
Proof. intros [_ (m & E & _)] H. rewrite E, map_app. apply in_or_app. right. exact H. Qed.
Lemma inv0 gen : Inv gen env0. Proof. repeat split; constructor. Qed.

(** The blank node that was given [i]. *)
Fixpoint find_id (i : id) (l : list (string * id)) : option string :=
  match l with [] => None | (b, j) :: l' => if id_eqb i j then Some b else find_id i l' end.
Lemma find_id_in i l b : find_id i l = Some b -> In (b, i) l.
Proof. induction l as [|[b' j] l IH]; cbn; [discriminate|]. destruct (id_eqb_spec i j) as [->|N]; intros E; [injection E as ->; left; reflexivity|right; auto]. Qed.
Lemma find_id_nodup i l b : NoDup (map snd l) -> In (b, i) l -> find_id i l = Some b.
Proof.
  induction l as [|[b' j] l IH]; cbn; [intros _ []|]. intros N [E|I]; inversion N as [|? ? N1 N2]; subst.
  - injection E as -> ->. destruct (id_eqb_spec i i) as [_|X]; [reflexivity|contradiction X; reflexivity].
  - destruct (id_eqb_spec i j) as [->|_]; [|auto]. exfalso. apply N1. apply (in_map snd) in I. exact I.
Qed.
Lemma find_id_none i l : find_id i l = None -> ~ In i (map snd l).
Proof. induction l as [|[b' j] l IH]; cbn; [intros _ []|]. destruct (id_eqb_spec i j) as [->|N]; [discriminate|]. intros E [X|I]; [congruence|exact (IH E I)]. Qed.

(** Relabelling, the state it ends with, and what it gives. *)
Lemma relabel_state fin rnd gen d : never_repeats gen -> wf_doc d ->
  (forall k, named_in d (gen k) -> exists b, gen k = IBlank b) ->
  exists f A d' sf, relabel_l gen (assign_id gen) (collect_o fin rnd) (collect_n fin rnd) env0 d = (d', sf) /\ collect_o fin rnd d' = d' /\ wf_doc d' /\
    ren_doc f d d' A /\
    (forall b b', named_in d (IBlank b) -> named_in d (IBlank b') -> f b = f b' -> b = b') /\
    NoDup A /\ (forall b, named_in d (IBlank b) -> ~ In (f b) A) /\
    (forall i, In i A \/ (exists b, named_in d (IBlank b) /\ i = f b) -> exists k, k < fst sf /\ i = gen k).
Proof.
  intros G [W Ds] Fr.
  destruct (relabel_l gen (assign_id gen) ide ide env0 d) as [d' sf] eqn:E.
  destruct (relabel_l_renames gen G (assign_id gen) look (fun s i => forall b, i = IBlank b -> In b (map fst (snd s)))
    (step_assign gen G) (assign_ren gen) (fun s s' i X H b Y => in_ext gen s s' b X (H b Y)) d env0 d' sf (inv0 gen) E) as (A & St & R & Dm).
  assert (If : Inv gen sf) by (apply St, inv0). specialize (R sf If (ext_refl gen sf)).
  assert (Kb : forall b, named_in d (IBlank b) -> exists i, In (b, i) (snd sf) /\ look sf b = i).
  { intros b N. specialize (Dm _ N b eq_refl). apply in_map_iff in Dm. destruct Dm as ([b' i] & X & I). cbn in X. subst. exists i. split; [exact I|].
    unfold look. rewrite (assoc_In_nodup _ _ _ (proj1 (proj2 If)) I). reflexivity. }
  assert (Gs' : forall i, In i (map snd (snd sf)) -> exists k, k < fst sf /\ i = gen k).
  { intros i I. apply in_map_iff in I. destruct I as (p & <- & I). destruct (Forall_in _ _ _ (proj1 If) I) as (k & [_ L] & X). eauto. }
  assert (Ga' : forall i, In i A -> exists k, k < fst sf /\ i = gen k).
  { intros i I. destruct St as (_ & _ & _ & F & _). destruct (Forall_in _ _ _ F I) as (k & [_ L] & X). eauto. }
  assert (Gs : forall i, In i (map snd (snd sf)) -> exists k, i = gen k) by (intros i I; destruct (Gs' i I) as (k & _ & X); eauto).
  assert (Ga : forall i, In i A -> exists k, i = gen k) by (intros i I; destruct (Ga' i I) as (k & _ & X); eauto).
  assert (Dj : forall i, In i A -> ~ In i (map snd (snd sf))) by (apply St, inv0).
  set (u := fun i => if existsb (id_eqb i) A then None else match find_id i (snd sf) with Some b => Some (IBlank b) | None => Some i end).
  assert (U : map (un_i u) d' = d).
  { apply (ren_doc_undone u (look sf) d d' A R).
    - intros i I. unfold u. assert (X : existsb (id_eqb i) A = true). { apply existsb_exists. exists i. split; [exact I|]. destruct (id_eqb_spec i i); [reflexivity|congruence]. }
      rewrite X. reflexivity.
    - intros i N.
      assert (NA : forall j, ~ In j A -> existsb (id_eqb j) A = false).
      { intros j H. destruct (existsb (id_eqb j) A) eqn:X; [|reflexivity]. apply existsb_exists in X. destruct X as (z & I & X). destruct (id_eqb_spec j z); [subst; contradiction|discriminate]. }
      assert (Nb : (forall b, i <> IBlank b) -> u i = Some i).
      { intros B. assert (NG : forall k, i <> gen k). { intros k ->. destruct (Fr k N) as (b & X). exact (B b X). }
        unfold u. rewrite NA; [|intros I; destruct (Ga i I) as (k & X); exact (NG k X)].
        destruct (find_id i (snd sf)) as [b|] eqn:X; [|reflexivity]. apply find_id_in, (in_map snd) in X. destruct (Gs _ X) as (k & Y). exfalso. exact (NG k Y). }
      destruct i as [v|b|v]; cbn [ren_id]; [apply Nb; discriminate| |apply Nb; discriminate].
      destruct (Kb b N) as (j & I & ->). unfold u. rewrite NA.
      + rewrite (find_id_nodup j (snd sf) b (proj2 (proj2 If)) I). reflexivity.
      + intros J. apply (Dj j J). apply (in_map snd) in I. exact I. }
  destruct (relabel_l_kept u fin rnd gen (assign_id gen) d env0 d' sf W Ds E U) as (E' & C & W').
  exists (look sf), A, d', sf. split; [exact E'|]. split; [exact C|]. split; [exact W'|]. split; [exact R|]. split; [|split; [apply St|split]].
  - intros b b' N N' X. destruct (Kb b N) as (i & I & Y), (Kb b' N') as (i' & I' & Y'). rewrite Y, Y' in X. subst i'.
    pose proof (find_id_nodup i (snd sf) b (proj2 (proj2 If)) I) as P. rewrite (find_id_nodup i (snd sf) b' (proj2 (proj2 If)) I') in P. congruence.
  - intros b N J. destruct (Kb b N) as (i & I & Y). rewrite Y in J. apply (Dj i J). apply (in_map snd) in I. exact I.
  - intros i [I|(b & N & ->)]; [exact (Ga' i I)|]. destruct (Kb b N) as (j & I & ->). apply Gs'. apply (in_map snd) in I. exact I.
Qed.
(** For every document and every generator that neither repeats nor gives an IRI (or invalid
    identifier) of the document: relabelling renames every blank node used to identify nodes or as
    a type by an injective [f], gives distinct identifiers, all different from those, to the
    anonymous nodes, and changes nothing else.  Missing for C26: blank node identifiers used as
    (reverse) properties. *)
Theorem C26_partial : forall fin rnd gen d, never_repeats gen -> wf_doc d ->
  (forall k, named_in d (gen k) -> exists b, gen k = IBlank b) ->
  exists f A, ren_doc f d (relabel fin rnd gen d) A /\
    (forall b b', named_in d (IBlank b) -> named_in d (IBlank b') -> f b = f b' -> b = b') /\
    NoDup A /\ (forall b, named_in d (IBlank b) -> ~ In (f b) A) /\
    (forall i, In i A \/ (exists b, named_in d (IBlank b) /\ i = f b) -> exists k, i = gen k).
Proof.
  intros fin rnd gen d G W Fr. destruct (relabel_state fin rnd gen d G W Fr) as (f & A & d' & sf & E & C & _ & R & I1 & I2 & I3 & I4).
  exists f, A. unfold relabel. rewrite E. cbn [fst]. rewrite C. split; [exact R|]. split; [exact I1|]. split; [exact I2|]. split; [exact I3|].
  intros i H. destruct (I4 i H) as (k & _ & X). eauto.
Qed.
Print Assumptions C26_partial.

(** The names of properties are never touched, so a blank node used both as a node and as a
    property is no longer the same after relabelling: C26 fails for [d] below. *)
Definition word_fin (l : list word) : N := N.of_nat (length l).
Definition gen_b (k : nat) : id := IBlank ("_:g" +++ String (ascii_of_nat (48 + k)) "").
Definition blank_prop_doc : list iobj :=
  [(None, ONode (MkNode (Some (IBlank "_:p")) (Some [IIri "http://t/"]) None None [(IBlank "_:p", [(None, OVal (VLit (LStr "v") None))])] None))].
Theorem C26_refuted : exists d i n, wf_doc d /\ In (i, ONode n) (relabel word_fin word_fin gen_b d) /\
  n_id n = Some (IBlank "_:g0") /\ In (IBlank "_:p") (map fst (n_props n)).
Proof.
  exists blank_prop_doc, None. eexists. split.
  - split; [|repeat constructor]. constructor; [|constructor]. cbn. constructor. repeat constructor; cbn; auto.
  - split; [vm_compute; left; reflexivity|]. split; [reflexivity|left; reflexivity].
Qed.
Print Assumptions C26_refuted.

(** C54: identification names the anonymous nodes and changes nothing else, when the generator
    gives no identifier of the document. *)
Theorem C54_identify : forall fin rnd gen d, never_repeats gen -> wf_doc d -> (forall k, ~ named_in d (gen k)) ->
  exists A, ren_doc IBlank d (identify fin rnd gen d) A /\ NoDup A /\ (forall i, In i A -> exists k, i = gen k).
Proof.
  intros fin rnd gen d G [W Ds] Fr.
  destruct (relabel_l gen keep_id ide ide env0 d) as [d' sf] eqn:E.
  destruct (relabel_l_renames gen G keep_id (fun _ => IBlank) (fun _ _ => True)) with (d := d) (s := env0) (y := d') (s' := sf) as (A & St & R & _).
  - intros s i i' s' X. injection X as <- <-. apply step_refl.
  - intros s i i' s' _ X. injection X as <- <-. split; [exact I|]. intros sf' _ _. destruct i; reflexivity.
  - auto.
  - apply inv0.
  - exact E.
  - specialize (R sf (proj1 St (inv0 gen)) (ext_refl gen sf)). cbn beta in R.
    assert (Ga : forall i, In i A -> exists k, i = gen k).
    { intros i I. destruct St as (_ & _ & _ & F & _). destruct (Forall_in _ _ _ F I) as (k & _ & X). eauto. }
    set (u := fun i => if existsb (id_eqb i) A then None else Some i).
    assert (U : map (un_i u) d' = d).
    { apply (ren_doc_undone u IBlank d d' A R).
      - intros i I. unfold u. assert (X : existsb (id_eqb i) A = true). { apply existsb_exists. exists i. split; [exact I|]. destruct (id_eqb_spec i i); [reflexivity|congruence]. }
        rewrite X. reflexivity.
      - intros i N. replace (ren_id IBlank i) with i by (destruct i; reflexivity). unfold u.
        destruct (existsb (id_eqb i) A) eqn:X; [|reflexivity]. apply existsb_exists in X. destruct X as (z & I & X). destruct (id_eqb_spec i z) as [->|]; [|discriminate].
        destruct (Ga z I) as (k & ->). contradiction (Fr k N). }
    destruct (relabel_l_kept u fin rnd gen keep_id d env0 d' sf W Ds E U) as (E' & C & _).
    exists A. unfold identify. rewrite E'. cbn [fst]. rewrite C. split; [exact R|]. split; [apply St|exact Ga].
Qed.
Print Assumptions C54_identify.

(** Two nodes sharing [_:b] through an object, a type and a list, and two anonymous nodes. *)
Definition shared_doc : list iobj :=
  [(None, ONode (MkNode (Some (IBlank "_:b")) None None None
     [(IIri "http://p/", [(None, ONode (node_new None)); (None, OList [(None, ONode (node_new (Some (IBlank "_:c"))))])])] None));
   (Some "i", ONode (MkNode None (Some [IBlank "_:b"; IIri "http://t/"]) None None [] (Some [(IIri "http://q/", [(None, node_new (Some (IBlank "_:c")))])])))].
Example C26_example : relabel word_fin word_fin gen_b shared_doc =
  [(None, ONode (MkNode (Some (IBlank "_:g0")) None None None
     [(IIri "http://p/", [(None, ONode (node_new (Some (IBlank "_:g1")))); (None, OList [(None, ONode (node_new (Some (IBlank "_:g2"))))])])] None));
   (Some "i", ONode (MkNode (Some (IBlank "_:g3")) (Some [IBlank "_:g0"; IIri "http://t/"]) None None [] (Some [(IIri "http://q/", [(None, node_new (Some (IBlank "_:g2")))])])))].
Proof. vm_compute. reflexivity. Qed.
Example C54_example : identify word_fin word_fin gen_b shared_doc =
  [(None, ONode (MkNode (Some (IBlank "_:b")) None None None
     [(IIri "http://p/", [(None, ONode (node_new (Some (IBlank "_:g0")))); (None, OList [(None, ONode (node_new (Some (IBlank "_:c"))))])])] None));
   (Some "i", ONode (MkNode (Some (IBlank "_:g1")) (Some [IBlank "_:b"; IIri "http://t/"]) None None [] (Some [(IIri "http://q/", [(None, node_new (Some (IBlank "_:c")))])])))].
Proof. vm_compute. reflexivity. Qed.

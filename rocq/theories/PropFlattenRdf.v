(** C91: flattening and the RDF of a document. *)
From Coq Require Import Permutation.
From Verif Require Import Prelude Json Enums LangTag LangString Str Keyword Container ContextSyntax Ctx Object ObjectEq ObjectJson Traverse Relabel RelabelProofs PropRelabel Flatten FlattenProofs FlattenSpec FlattenEffect FlattenOutput PropFlatten Rdf RdfProofs RdfSpec PropRdf.
From Coq Require Import Lia.

(** Equal RDF terms, up to the letter case of the language tag (in the datatype, for the strings
    with a direction). *)
Inductive alike : rval -> rval -> Prop :=
| AlEq r : alike r r
| AlTag t l l' : same_lang l l' -> alike (RLit t (TLang l)) (RLit t (TLang l'))
| AlDir t l l' d : same_lang l l' -> alike (RLit t (TAny (i18n (Some l) d))) (RLit t (TAny (i18n (Some l') d))).
(** A node of the encoding of lists and of strings with a direction. *)
Definition made (gen : nat -> vid) (s : vid) : Prop := exists k, s = gen k.
Definition made_term (gen : nat -> vid) (r : rval) : Prop := exists k, r = RId (gen k).
(** The dataset gives the list [l] to the property [p] of [s]. *)
Definition gives_list (io : rdf_io) (gen : nat -> vid) (dir : option rdf_direction) (qs : list quad) (s p : vid) (g : option vid) (l : list iobj) : Prop :=
  exists r T, In (s, p, r, g) qs /\ collection io gen dir T r l /\ forall t, In t T -> In (t, g) qs.
(** Flattening keeps the types of the node [i] of the graph [a] (C28). *)
Definition types_stay (T : list iobj) (a : option id) (i : id) : Prop :=
  (forall z n z' n' ts ts', occurs_in T a z n -> n_id n = Some i -> n_types n = Some ts -> occurs_in T a z' n' -> n_id n' = Some i -> n_types n' = Some ts' -> ts = ts') /\
  (a = None \/ (exists p o, says T a i p o) \/ exists x n, occurs_in T a (Some x) n /\ n_id n = Some i).

Section Kept.
  Variables (io : rdf_io) (gen : nat -> vid) (dir : option rdf_direction) (generalized : bool).
  Notation denotes := (RdfSpec.denotes io gen dir).
  Notation has_value := (RdfSpec.has_value io).
  Notation means := (RdfSpec.means io gen dir).
  Lemma means_same v v' r r' : same_value v' v -> means v r -> means v' r' -> ~ made_term gen r -> alike r' r.
  Proof.
    intros S M M' F. inversion S as [l t|d l l' di B|j]; subst.
    - inversion M; subst; inversion M'; subst; try constructor; try congruence; match goal with H : _ \/ _ |- _ => destruct H; congruence end.
    - assert (X : match l, l' with Some x, Some y => same_lang x y | None, None => True | _, _ => False end) by (inversion B; subst; auto).
      inversion M; subst; cbn in *; subst; inversion M'; subst; cbn in *; subst;
        repeat match goal with H : Some _ = Some _ |- _ => injection H as H; subst | H : _ \/ _ |- _ => destruct H as [H|H] end; try discriminate; try congruence;
        try (exfalso; apply F; eexists; reflexivity); try contradiction.
      all: try (destruct l; try contradiction); try (destruct l'; try contradiction); try discriminate;
        repeat match goal with H : Some _ = Some _ |- _ => injection H as H; subst end; try (constructor; assumption); try (apply AlEq).
    - inversion M; subst; inversion M'; subst. constructor.
  Qed.
  Lemma means_eq v r r' : means v r -> means v r' -> ~ made_term gen r -> r' = r.
  Proof.
    intros M M' F. destruct v as [l t|s|j].
    - inversion M; subst; inversion M'; subst; try congruence; match goal with H : _ \/ _ |- _ => destruct H; congruence end.
    - inversion M; subst; inversion M'; subst; try congruence;
        repeat match goal with H : _ \/ _ |- _ => destruct H as [H|H] end; try congruence; exfalso; apply F; eexists; reflexivity.
    - inversion M; subst; inversion M'; subst. reflexivity.
  Qed.
  Lemma named_left i w w' : named i w -> named i w' -> w = w'.
  Proof. intros [] X; inversion X; reflexivity. Qed.
  Lemma named_right i j w : named i w -> named j w -> i = j.
  Proof. intros [] X; inversion X; reflexivity. Qed.
  Lemma graph_right a b g : graph_named a g -> graph_named b g -> a = b.
  Proof. intros [|i v H] X; inversion X; [reflexivity|]. f_equal. eapply named_right; eassumption. Qed.
  Lemma denotes_eq o r r' : denotes r o -> denotes r' o -> ~ made_term gen r -> r' = r.
  Proof.
    intros D D' F. inversion D as [v ? M|n i w Ei Nm|E1 E2|k y l E1 E2]; subst; inversion D' as [? ? M'|? i' w' Ei' Nm'|E1' E2'|]; subst; try reflexivity.
    - eapply means_eq; eassumption.
    - rewrite Ei in Ei'. injection Ei' as <-. f_equal. eapply named_left; eassumption.
    - exfalso. apply F. eexists; reflexivity.
  Qed.
  Lemma same_node_id n m : same_node n m -> n_id n = n_id m. Proof. intros []; reflexivity. Qed.
  Lemma denotes_same o o' r r' : same o' o -> denotes r o -> denotes r' o' -> ~ made_term gen r -> alike r' r.
  Proof.
    intros S D D' F. inversion S as [v w Sv|n m Sn|l m Sl]; subst.
    - inversion D; subst; inversion D'; subst. eapply means_same; eassumption.
    - inversion D as [|? i w Ei Nm| |]; subst; inversion D' as [|? i' w' Ei' Nm'| |]; subst. rewrite (same_node_id _ _ Sn), Ei in Ei'. injection Ei' as <-. rewrite (named_left _ _ _ Nm Nm'). constructor.
    - inversion D; subst; [|exfalso; apply F; eexists; reflexivity]. inversion Sl; subst. inversion D'; subst. constructor.
  Qed.
  Lemma denotes_value r o : denotes r o -> has_value o.
  Proof.
    intros [v r' M|n i w Ei Nm| |k y l]; try constructor.
    - intros s ->. inversion M; subst; try assumption. intros l L. congruence.
    - econstructor; eassumption.
  Qed.
  Hypothesis (Hw : forall l l', same_lang l l' -> wf_lang io l = wf_lang io l').
  Lemma good_same v v' : same_value v' v -> (forall s, v = VLang s -> good_tag io s) -> forall s, v' = VLang s -> good_tag io s.
  Proof.
    intros S H s ->. inversion S as [|d l l' r B|]; subst. intros x X. cbn in X. subst l. inversion B; subst. rewrite (Hw x y) by assumption. eapply H; reflexivity.
  Qed.
  Lemma value_same o o' : same o' o -> has_value o -> has_value o'.
  Proof.
    intros S H. inversion S as [v w Sv|n m Sn|l m Sl]; subst; inversion H; subst.
    - constructor. eapply good_same; eassumption.
    - econstructor; [rewrite (same_node_id _ _ Sn); eassumption|eassumption].
    - constructor.
  Qed.
  Lemma expressible_same : forall o o', same o' o -> expressible io o -> expressible io o'.
  Proof.
    refine (proj1 (obj_node_ind (fun o => forall o', same o' o -> expressible io o -> expressible io o') (fun _ => True) _ _ _ _)); auto.
    - intros v o' S H. inversion S; subst. inversion H; subst. constructor. eapply good_same; eassumption.
    - intros n _ o' S H. inversion S; subst. inversion H; subst. econstructor; [erewrite same_node_id by eassumption; eassumption|eassumption].
    - intros l IH o' S H. inversion S as [| |m ? Sl]; subst. inversion H as [| |? F]; subst. constructor. clear S H. induction Sl as [|x y m l [_ Sx] Sl IHl]; [constructor|].
      inversion IH; inversion F; subst. constructor; auto.
  Qed.
End Kept.

Section Said.
  Variables (io : rdf_io) (gen : nat -> vid) (dir : option rdf_direction) (generalized : bool).
  Notation denotes := (RdfSpec.denotes io gen dir).
  Lemma denotes_ref r y : denotes r (snd y) -> denotes r (snd (ref_i y)).
  Proof.
    destruct y as [x o]. cbn [snd]. intros [v r' M|n i w Ei Nm| |k y l]; cbn; try constructor; auto.
    econstructor; [cbn; unfold the_id; rewrite Ei; reflexivity|exact Nm].
  Qed.
  (** Objects whose nodes have identifiers. *)
  Lemma ref_value y : (forall n, snd y = ONode n -> exists i, n_id n = Some i) -> has_value io (snd (ref_i y)) -> has_value io (snd y).
  Proof.
    destruct y as [x [v|n|l]]; cbn; auto; [|constructor]. intros H V. destruct (H n eq_refl) as (i & Ei). inversion V as [|? j w Ej Nm|]; subst. cbn in Ej. unfold the_id in Ej. rewrite Ei in Ej. injection Ej as ->. econstructor; eassumption.
  Qed.
  Lemma ref_denotes r y : (forall n, snd y = ONode n -> exists i, n_id n = Some i) -> denotes r (snd (ref_i y)) -> denotes r (snd y).
  Proof.
    destruct y as [x [v|n|l]]; cbn; auto.
    - intros H V. destruct (H n eq_refl) as (i & Ei). inversion V as [|? j w Ej Nm| |]; subst. cbn in Ej. unfold the_id in Ej. rewrite Ei in Ej. injection Ej as ->. econstructor; eassumption.
    - intros _ V. destruct l; inversion V; subst; constructor.
  Qed.
  Variables (d : list iobj) (qs : list quad).
  Hypothesis (Id : identified d) (E : emits io gen dir generalized (doc_frames d) qs).
  Lemma all_told b z n : occurs_in d b z n -> told io gen dir generalized qs b n.
  Proof. intros O. eapply seen_told; [exact E|]. eapply occurs_in_seen; eassumption. Qed.
  Lemma prop_identified b z n p l y : occurs_in d b z n -> In (p, l) (n_props n) -> In y l -> forall m, snd y = ONode m -> exists i, n_id m = Some i.
  Proof.
    intros (w & Iw & O) Ip Iy m Em. apply (Id b (fst y) m). exists w. split; [exact Iw|].
    eapply occurs_trans; [exact O|]. eapply OcProp; [exact Ip|exact Iy|]. rewrite Em. constructor. constructor.
  Qed.
  Lemma said_emitted a i q o g s p : says d a i q o -> graph_named a g -> named i s -> named q p -> allowed generalized p -> has_value io (snd o) ->
    exists r, In (s, p, r, g) qs /\ denotes r (snd o).
  Proof.
    intros (z & n & O & [(Ei & l & y & Ip & Iy & ->)|(l & y & j & Ip & Iy & Ey & En & ->)]) Hg Hs Hp Ha Hv.
    - destruct (all_told _ _ _ O g i s Hg Ei Hs) as (_ & H & _). destruct (H q p l y Ip Iy Hp Ha) as (r & I & D).
      + apply ref_value; [|exact Hv]. eapply prop_identified; eassumption.
      + exists r. split; [exact I|]. apply denotes_ref, D.
    - inversion Hv as [|? j' w Ej Nj|]; subst. cbn in Ej. injection Ej as <-.
      destruct (all_told _ _ _ O g j w Hg En Nj) as (_ & _ & _ & H). exists (RId w). split; [exact (H q p l y i s Ip Iy Ey Hs Hp Ha)|]. econstructor; [reflexivity|exact Nj].
  Qed.
  Lemma emitted_said s p r g : In (s, p, r, g) qs ->
    ((p = r_first \/ p = r_rest) /\ made gen s) \/
    exists a i, graph_named a g /\ named i s /\
      ((p = VIri (rdf "type") /\ exists t v, says_type d a i t /\ named t v /\ r = RId v) \/
       (exists q o, says d a i q o /\ named q p /\ denotes r (snd o))).
  Proof.
    intros I. destruct (C55_only_the_document _ _ _ _ _ _ E _ _ _ _ I) as [H|(b & z & n & i & Hg & O & Ei & H)]; [left; exact H|right].
    destruct H as [(Hs & Hp & t & v & It & Hv & ->)|[(Hs & q & l & y & Iq & Iy & Hq & D)|(q & l & y & j & v & Iq & Iy & Ej & Hs & Hq & Hv & ->)]].
    - exists b, i. split; [exact Hg|]. split; [exact Hs|]. left. split; [exact Hp|]. exists t, v. split; [exists z, n; auto|auto].
    - exists b, i. split; [exact Hg|]. split; [exact Hs|]. right. exists q, (ref_i y). split; [exists z, n; split; [exact O|]; left; split; [exact Ei|]; exists l, y; auto|]. split; [exact Hq|]. apply denotes_ref, D.
    - exists b, j. split; [exact Hg|]. split; [exact Hs|]. right. exists q, (reference i). split; [exists z, n; split; [exact O|]; right; exists l, y, i; auto|]. split; [exact Hq|]. econstructor; [reflexivity|exact Hv].
  Qed.
  Lemma type_emitted a i t g s v : says_type d a i t -> graph_named a g -> named i s -> named t v -> In (s, VIri (rdf "type"), RId v, g) qs.
  Proof. intros (z & n & O & Ei & It) Hg Hs Hv. destruct (all_told _ _ _ O g i s Hg Ei Hs) as (H & _). exact (H t v It Hv). Qed.
  Lemma emitted_allowed s p r g : In (s, p, r, g) qs -> allowed generalized p.
  Proof.
    intros I. destruct (C31_well_formed io gen dir generalized (doc_frames d)) as (qs' & E' & H). destruct E as [f Ef], E' as [f' Ef'].
    rewrite (rdf_quads_spec _ _ _ _ _ _ _ Ef) in I. rewrite (rdf_quads_spec _ _ _ _ _ _ _ Ef') in H. exact (proj1 (H s p r g I)).
  Qed.
End Said.

Lemma flattened_emits io gen dir generalized out qs : emits io gen dir generalized (flattened_frames out) qs -> emits io gen dir generalized (doc_frames (as_doc out)) qs.
Proof.
  intros [f Ef]. rewrite (rdf_quads_spec _ _ _ _ _ _ _ Ef). destruct (rdf_quads_are io gen dir generalized (doc_frames (as_doc out))) as [N H]. exists N. rewrite H by lia.
  assert (X : frames_out (doc_frames (as_doc out)) = frames_out (flattened_frames out)).
  { unfold frames_out, doc_frames, flattened_frames, as_doc. cbn [flat_map fr_out]. f_equal. clear. induction out as [|x out IH]; [reflexivity|]. cbn [map flat_map snd]. f_equal; exact IH. }
  rewrite X. reflexivity.
Qed.
Lemma occurs_reindex a x o b z m : occurs a x o b z m -> forall x', exists z', occurs a x' o b z' m.
Proof.
  intros [a0 x0 n b0 z0 m0 O|a0 x0 l y b0 z0 m0 I O] x'; [|exists z0; eapply OcList; eassumption].
  destruct O as [a1 x1 n|a1 x1 n i y b1 z1 m1 E I O|a1 x1 n y b1 z1 m1 I O|a1 x1 n p y b1 z1 m1 I J O|a1 x1 n p y b1 z1 m1 I J O]; [exists x'; constructor; constructor|exists z1; constructor..].
  - eapply OcGraph; eassumption.
  - eapply OcIncluded; eassumption.
  - eapply OcProp; eassumption.
  - eapply OcReverse; eassumption.
Qed.
Lemma expressible_ref io a : forall o, (forall x b z m, occurs a x o b z m -> exists i, n_id m = Some i) -> forall x, expressible io (snd (ref_o x o)) -> expressible io o.
Proof.
  refine (proj1 (obj_node_ind (fun o => (forall x b z m, occurs a x o b z m -> exists i, n_id m = Some i) -> forall x, expressible io (snd (ref_o x o)) -> expressible io o) (fun _ => True) _ _ _ _)); auto.
  - intros m _ H w Q. destruct (H None a None m) as (i & Ei); [constructor; constructor|]. cbn in Q. unfold the_id in Q. rewrite Ei in Q. inversion Q as [|? j u Ej Nj|]; subst. cbn in Ej. injection Ej as <-. econstructor; eassumption.
  - intros m IH H w Q. cbn in Q. inversion Q as [| |? F]; subst. constructor. apply Forall_forall. intros y J. rewrite Forall_map in F.
    apply (Forall_in _ _ _ IH J) with (x := fst y); [|exact (Forall_in _ _ _ F J)]. intros x b z m' O. destruct (occurs_reindex _ _ _ _ _ _ O (fst y)) as (z' & O').
    apply (H None b z' m'). eapply OcList; [exact J|exact O'].
Qed.
Lemma gives_said io gen dir generalized d qs a i q x l g s p : identified d -> emits io gen dir generalized (doc_frames d) qs ->
  says d a i q (x, OList l) -> graph_named a g -> named i s -> named q p -> allowed generalized p -> Forall (fun y => expressible io (snd y)) l ->
  exists l', map ref_i l' = l /\ gives_list io gen dir qs s p g l'.
Proof.
  intros Id E (z & n & O & [(Ei & k & y & Ip & Iy & Ey)|(k & y & j & Ip & Iy & Ey & En & Eo)]) Hg Hs Hp Ha Hx; [|discriminate].
  destruct y as [x' [v|m|l']]; try discriminate. cbn in Ey. injection Ey as <- Ey. exists l'. split; [symmetry; exact Ey|].
  assert (X : expressible io (OList l')).
  { apply (expressible_ref io a) with (x := None); [|cbn; rewrite <- Ey; constructor; exact Hx].
    intros x0 b z' m Om. apply (Id b z' m). destruct O as (w & Iw & O). exists w. split; [exact Iw|]. eapply occurs_trans; [exact O|].
    eapply OcProp; [exact Ip|exact Iy|]. cbn. inversion Om; subst. eapply OcList; eassumption. }
  destruct (all_told _ _ _ _ _ _ Id E _ _ _ O g i s Hg Ei Hs) as (_ & _ & H & _).
  destruct (H q p k _ Ip Iy Hp Ha X) as (r & Tr & I & St & J). cbn in St. inversion St; subst. exists r, Tr. auto.
Qed.
(** A collection does not see the difference between a node and a reference to it. *)
Lemma stands_ref io gen dir T : forall o x r, stands io gen dir T r o -> stands io gen dir T r (snd (ref_o x o)).
Proof.
  refine (proj1 (obj_node_ind (fun o => forall x r, stands io gen dir T r o -> stands io gen dir T r (snd (ref_o x o))) (fun _ => True) _ _ _ _)); auto.
  - intros n _ x r S. inversion S; subst. cbn. econstructor; [|eassumption]. cbn. unfold the_id. match goal with H : n_id n = _ |- _ => rewrite H end. reflexivity.
  - intros l IH x r S. inversion S as [| |? ? C]; subst. cbn. constructor. clear S. revert r C. induction IH as [|y l Hy IH IHl]; intros r C; inversion C; subst; cbn; [constructor|].
    econstructor; [eassumption| |eassumption|apply IHl; eassumption]. apply Hy. assumption.
Qed.
Lemma gives_ref io gen dir qs s p g l : gives_list io gen dir qs s p g l -> gives_list io gen dir qs s p g (map ref_i l).
Proof.
  intros (r & T & I & C & J). exists r, T. split; [exact I|]. split; [|exact J].
  pose proof (stands_ref io gen dir T (OList l) None r (SdList _ _ _ _ _ _ C)) as S. cbn in S. inversion S; subst. assumption.
Qed.

(** ** C91 *)
(** Naming the nodes of the document by [f] and [A], without confusing any two, gives a document [T]
    such that, apart from the encoding of lists and of strings with a direction (the quads with a
    generated node as object, and those of the generated nodes):
    - the quads of the flattened document are quads of [T];
    - the other quads of [T] are those of the flattened document, up to the letter case of language
      tags, except for the types that flattening loses (C28);
    - the lists that the two datasets give to a property of a node are the same, up to that too. *)
Theorem C91_same_rdf : forall fin rnd pg pn po gen d out, any_order pg -> (forall a, any_order (pn a)) -> any_order po ->
  PropRelabel.never_repeats gen -> (forall k, named_in d (gen k) -> exists b, gen k = IBlank b) ->
  flatten fin rnd pg pn po gen d = Ok out ->
  exists f A T, ren_doc f d T A /\ no_confusion d f A /\
  forall io rg dir generalized qt qo, emits io rg dir generalized (doc_frames T) qt -> emits io rg dir generalized (flattened_frames out) qo ->
    let apart s p r := ~ ((p = r_first \/ p = r_rest) /\ made rg s) /\ ~ made_term rg r in
    (forall s p r g, In (s, p, r, g) qo -> apart s p r -> In (s, p, r, g) qt) /\
    (forall a i q x l g s p, says (as_doc out) a i q (x, OList l) -> graph_named a g -> named i s -> named q p -> allowed generalized p -> Forall (fun y => expressible io (snd y)) l ->
      gives_list io rg dir qo s p g l /\ gives_list io rg dir qt s p g l) /\
    ((forall l l', same_lang l l' -> wf_lang io l = wf_lang io l') ->
      (forall s p r g, In (s, p, r, g) qt -> apart s p r ->
        (p = VIri (rdf "type") -> forall a i, graph_named a g -> named i s -> types_stay T a i) ->
        exists r', In (s, p, r', g) qo /\ alike r' r) /\
      (forall a i q x l g s p, says T a i q (x, OList l) -> graph_named a g -> named i s -> named q p -> allowed generalized p -> Forall (fun y => expressible io (snd y)) l ->
        gives_list io rg dir qt s p g l /\ exists l', Forall2 same_i l' l /\ gives_list io rg dir qo s p g l')).
Proof.
  intros fin rnd pg pn po gen d out Hg Hn Ho G Fr E. destruct (relabelled gen d G Fr) as (f & A & R & C).
  set (T := fst (relabel_l gen (assign_id gen) ide ide env0 d)) in *. pose proof (ren_doc_idd _ _ _ _ R) as Idd.
  exists f, A, T. split; [exact R|]. split; [exact C|].
  pose proof (flatten_says_sound fin rnd pg pn po Hg Hn Ho gen d out E Idd) as S1.
  pose proof (flatten_says_complete fin rnd pg pn po Hg Hn Ho gen d out E Idd) as S2.
  pose proof (flatten_types_sound fin rnd pg pn po Hg Hn Ho gen d out E Idd) as S3.
  pose proof (flatten_types_complete fin rnd pg pn po Hg Hn Ho gen d out E Idd) as S4. fold T in S1, S2, S3, S4.
  pose proof (idd_doc_identified T Idd) as IdT.
  assert (IdO : identified (as_doc out)).
  { destruct (flatten_flat fin rnd pg pn po Hg Hn Ho gen d out E) as [_ Fl]. intros a z n O.
    destruct (flat_doc_occurs fin rnd pg pn po Hg Hn Ho gen d out E a z n O) as [(i & ->)|[(-> & I)|(x & g & -> & I & _ & J)]]; [eexists; reflexivity| |].
    - exact (proj1 (proj1 (Fl _ I))).
    - destruct (Fl _ I) as (_ & _ & Fg). destruct (Fg _ J) as (m & Em & Fm & _). injection Em as <-. exact (proj1 Fm). }
  intros io rg dir generalized qt qo Et Eo apart. apply flattened_emits in Eo.
  split; [|split].
  - intros s p r g I [A1 A2]. pose proof (emitted_allowed _ _ _ _ _ _ Eo _ _ _ _ I) as Ha.
    destruct (emitted_said _ _ _ _ _ _ Eo _ _ _ _ I) as [X|(a & i & Ga & Hs & [(-> & t & v & Ht & Hv & ->)|(q & o & Hq & Hp & D)])]; [contradiction| |].
    + exact (type_emitted _ _ _ _ _ _ IdT Et a i t g s v (S3 _ _ _ Ht) Ga Hs Hv).
    + destruct (said_emitted _ _ _ _ _ _ IdT Et a i q o g s p (S1 _ _ _ _ Hq) Ga Hs Hp Ha (denotes_value _ _ _ _ _ D)) as (r' & I' & D').
      rewrite (denotes_eq io rg dir _ _ _ D D' A2) in I'. exact I'.
  - intros a i q x l g s p Hl Ga Hs Hp Ha Hx. split.
    + destruct (gives_said _ _ _ _ _ _ _ _ _ _ _ _ _ _ IdO Eo Hl Ga Hs Hp Ha Hx) as (l' & <- & L). apply gives_ref, L.
    + destruct (gives_said _ _ _ _ _ _ _ _ _ _ _ _ _ _ IdT Et (S1 _ _ _ _ Hl) Ga Hs Hp Ha Hx) as (l' & <- & L). apply gives_ref, L.
  - intros Hw. split.
    + intros s p r g I [A1 A2] Hy. pose proof (emitted_allowed _ _ _ _ _ _ Et _ _ _ _ I) as Ha.
      destruct (emitted_said _ _ _ _ _ _ Et _ _ _ _ I) as [X|(a & i & Ga & Hs & [(-> & t & v & Ht & Hv & ->)|(q & o & Hq & Hp & D)])]; [contradiction| |].
      * exists (RId v). split; [|constructor]. destruct (Hy eq_refl a i Ga Hs) as [U K]. exact (type_emitted _ _ _ _ _ _ IdO Eo a i t g s v (S4 _ _ _ Ht U K) Ga Hs Hv).
      * destruct (S2 _ _ _ _ Hq) as (o' & Hq' & _ & So).
        destruct (said_emitted _ _ _ _ _ _ IdO Eo a i q o' g s p Hq' Ga Hs Hp Ha (value_same io Hw _ _ So (denotes_value _ _ _ _ _ D))) as (r' & I' & D').
        exists r'. split; [exact I'|]. eapply denotes_same; eassumption.
    + intros a i q x l g s p Hl Ga Hs Hp Ha Hx. split.
      * destruct (gives_said _ _ _ _ _ _ _ _ _ _ _ _ _ _ IdT Et Hl Ga Hs Hp Ha Hx) as (l' & <- & L). apply gives_ref, L.
      * destruct (S2 _ _ _ _ Hl) as ([x' o'] & Hq' & _ & So). cbn in So. pose proof (expressible_same io Hw _ _ So (ExList _ _ Hx)) as X. inversion So as [| |m ? Sl]; subst. exists m. split; [exact Sl|].
        inversion X as [| |? Xl]; subst. destruct (gives_said _ _ _ _ _ _ _ _ _ _ _ _ _ _ IdO Eo Hq' Ga Hs Hp Ha Xl) as (l' & <- & L). apply gives_ref, L.
Qed.
Print Assumptions C91_same_rdf.
(** The types that flattening loses are lost in RDF. *)
Theorem C91_types_refuted : exists out,
  flatten word_fin word_fin keep_order (fun _ => keep_order) keep_order gen_b lost_doc = Ok out /\
  forall io rg dir generalized qt qo, emits io rg dir generalized (doc_frames lost_doc) qt -> emits io rg dir generalized (flattened_frames out) qo ->
    let q := (VIri "http://a/", VIri (rdf "type"), RId (VIri "http://t/"), None) in In q qt /\ ~ In q qo.
Proof.
  eexists. split; [vm_compute; reflexivity|]. intros io rg dir generalized qt qo [f Et] [f' Eo]. rewrite (rdf_quads_spec _ _ _ _ _ _ _ Et), (rdf_quads_spec _ _ _ _ _ _ _ Eo).
  destruct generalized; cbn; (split; [left; reflexivity|intros [X|[]]; discriminate]).
Qed.
Print Assumptions C91_types_refuted.
(** [nested_doc] with its nodes named, and [nested_out]: the list, the reversed property, the
    included node, and the value given twice. *)
Example C91_example :
  let a := VIri "http://a/" in let p := VIri "http://p/" in let q := VIri "http://q/" in let lit t := RLit t (TAny (xsd "string")) in
  rdf_quads ex_io ex_gen None false 60 (doc_frames (fst (relabel_l gen_b (assign_id gen_b) ide ide env0 nested_doc))) =
    Some [(a, VIri (rdf "type"), RId (VIri "http://t/"), None);
          (a, q, RId (ex_gen 0), None); (ex_gen 0, r_first, RId (VBlank "_:g0"), None); (ex_gen 0, r_rest, RId r_nil, None);
          (VBlank "_:g0", p, lit "u", None); (VBlank "_:g0", p, lit "u", None); (a, q, lit "s", None);
          (VBlank "_:g0", VIri "http://r/", RId a, None); (VBlank "_:g1", p, lit "w", None); (VBlank "_:g0", p, lit "v", Some a)] /\
  rdf_quads ex_io ex_gen None false 60 (flattened_frames nested_out) =
    Some [(a, VIri (rdf "type"), RId (VIri "http://t/"), None);
          (a, q, RId (ex_gen 0), None); (ex_gen 0, r_first, RId (VBlank "_:g0"), None); (ex_gen 0, r_rest, RId r_nil, None);
          (a, q, lit "s", None); (VBlank "_:g0", p, lit "v", Some a); (VBlank "_:g1", p, lit "w", None);
          (VBlank "_:g0", p, lit "u", None); (VBlank "_:g0", VIri "http://r/", RId a, None)].
Proof. vm_compute. split; reflexivity. Qed.

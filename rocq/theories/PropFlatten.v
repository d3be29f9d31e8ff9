(** C27, C28, C29: flattening. *)
From Coq Require Import Permutation.
From Verif Require Import Prelude Json Enums LangTag LangString Str Keyword Container ContextSyntax Ctx Object ObjectEq ObjectJson Traverse Relabel RelabelProofs PropRelabel Flatten FlattenProofs FlattenSpec FlattenEffect FlattenOutput.

(** The flattened document as a document. *)
Definition as_doc (out : list inode) : list iobj := map (fun x => (fst x, ONode (snd x))) out.
(** [f], and the identifiers [A] of the anonymous nodes, never confuse two nodes of [d]. *)
Definition no_confusion (d : list iobj) (f : string -> id) (A : list id) : Prop :=
  (forall b b', named_in d (IBlank b) -> named_in d (IBlank b') -> f b = f b' -> b = b') /\
  NoDup A /\ (forall b, named_in d (IBlank b) -> ~ In (f b) A) /\
  (forall i j, In i A \/ (exists b, named_in d (IBlank b) /\ i = f b) -> named_in d j -> (forall b, j <> IBlank b) -> i <> j).
Definition any_order {A} (p : list A -> list A) : Prop := forall l, Permutation (p l) l.

Lemma relabelled_gen gen d : never_repeats gen -> (forall k, named_in d (gen k) -> exists b, gen k = IBlank b) ->
  exists f A, ren_doc f d (fst (relabel_l gen (assign_id gen) ide ide env0 d)) A /\ no_confusion d f A /\
    forall i, In i A \/ (exists b, named_in d (IBlank b) /\ i = f b) -> exists k, i = gen k.
Proof.
  intros G Fr.
  destruct (relabel_l gen (assign_id gen) ide ide env0 d) as [d' sf] eqn:E.
  destruct (relabel_l_renames gen G (assign_id gen) look (fun s i => forall b, i = IBlank b -> In b (map fst (snd s)))
    (step_assign gen G) (assign_ren gen) (fun s s' i X H b Y => in_ext gen s s' b X (H b Y)) d env0 d' sf (inv0 gen) E) as (A & St & R & Dm).
  assert (If : Inv gen sf) by (apply St, inv0). specialize (R sf If (ext_refl gen sf)).
  assert (Kb : forall b, named_in d (IBlank b) -> exists i, In (b, i) (snd sf) /\ look sf b = i).
  { intros b N. specialize (Dm _ N b eq_refl). apply in_map_iff in Dm. destruct Dm as ([b' i] & X & I). cbn in X. subst. exists i. split; [exact I|].
    unfold look. rewrite (assoc_In_nodup _ _ _ (proj1 (proj2 If)) I). reflexivity. }
  assert (Gs : forall i, In i (map snd (snd sf)) -> exists k, i = gen k).
  { intros i I. apply in_map_iff in I. destruct I as (p & <- & I). destruct (Forall_in _ _ _ (proj1 If) I) as (k & _ & X). eauto. }
  assert (Ga : forall i, In i A -> exists k, i = gen k).
  { intros i I. destruct St as (_ & _ & _ & F & _). destruct (Forall_in _ _ _ F I) as (k & _ & X). eauto. }
  assert (Dj : forall i, In i A -> ~ In i (map snd (snd sf))) by (apply St, inv0).
  assert (Gi : forall i, In i A \/ (exists b, named_in d (IBlank b) /\ i = look sf b) -> exists k, i = gen k).
  { intros i [I|(b & Nb & ->)]; [exact (Ga i I)|]. destruct (Kb b Nb) as (j & I & ->). apply Gs. apply (in_map snd) in I. exact I. }
  exists (look sf), A. split; [exact R|]. split; [|exact Gi]. split; [|split; [apply St|split]].
  - intros b b' N N' X. destruct (Kb b N) as (i & I & Y), (Kb b' N') as (i' & I' & Y'). rewrite Y, Y' in X. subst i'.
    pose proof (find_id_nodup i (snd sf) b (proj2 (proj2 If)) I) as P. rewrite (find_id_nodup i (snd sf) b' (proj2 (proj2 If)) I') in P. congruence.
  - intros b N J. destruct (Kb b N) as (i & I & Y). rewrite Y in J. apply (Dj i J). apply (in_map snd) in I. exact I.
  - intros i j H N B ->. destruct (Gi j H) as (k & ->). destruct (Fr k N) as (b & X). exact (B b X).
Qed.
Lemma relabelled gen d : never_repeats gen -> (forall k, named_in d (gen k) -> exists b, gen k = IBlank b) ->
  exists f A, ren_doc f d (fst (relabel_l gen (assign_id gen) ide ide env0 d)) A /\ no_confusion d f A.
Proof. intros G Fr. destruct (relabelled_gen gen d G Fr) as (f & A & R & C & _). eauto. Qed.

(** ** C27 *)
Definition flat_node (n : node) : Prop :=
  (exists i, n_id n = Some i) /\ n_included n = None /\ n_reverse n = None /\ forall p l y, In (p, l) (n_props n) -> In y l -> flat_value y.
(** In every graph: nodes have an identifier, no two have the same, property values are values,
    references or lists of those, and nothing else is nested. *)
Definition flat_doc (out : list inode) : Prop :=
  NoDup (map (fun x => n_id (snd x)) out) /\
  forall x, In x out -> flat_node (snd x) /\
    NoDup (map (fun y => match snd y with ONode n => n_id n | _ => None end) (opt_list (n_graph (snd x)))) /\
    forall y, In y (opt_list (n_graph (snd x))) -> exists n, snd y = ONode n /\ flat_node n /\ n_graph n = None.

Section Flat.
  Variables (fin rnd : list word -> N) (pg : list (id * graph) -> list (id * graph)) (pn : option id -> graph -> graph) (po : list inode -> list inode).
  Hypothesis (Hg : any_order pg) (Hn : forall a, any_order (pn a)) (Ho : any_order po).
  Variables (gen : nat -> id) (d : list iobj) (out : list inode).
  Hypothesis (E : flatten fin rnd pg pn po gen d = Ok out).
  Let T := fst (relabel_l gen (assign_id gen) ide ide env0 d).
  Lemma flatten_ok : exists m, do_ops fin rnd nmap0 (tr_doc T) = Ok m /\ flatten_map fin rnd pg pn po m = Ok out.
  Proof. unfold flatten in E. rewrite node_map_trace in E. fold T in E. destruct (do_ops fin rnd nmap0 (tr_doc T)) as [m|]; [|discriminate]. exists m. auto. Qed.
  Lemma sub_flat m k x y : do_ops fin rnd nmap0 (tr_doc T) = Ok m -> forall a, stored m a k x -> In y (filter_sub_graph x) -> exists n, snd y = ONode n /\ flat_node n /\ n_graph n = None.
  Proof.
    intros Em a S I. pose proof (stored_shape fin rnd _ m Em a k x S) as (A & _ & _). pose proof (stored_flat fin rnd _ m (tr_doc_fine T) Em a k x S) as F.
    destruct x as [z [i ts g inc ps rs]]. cbn in *. subst i.
    assert (y = (z, ONode (MkNode (Some k) ts None None ps None))) as ->. { destruct z; [destruct I as [<-|[]]; reflexivity|]. destruct ps; [contradiction|]. destruct I as [<-|[]]; reflexivity. }
    eexists. split; [reflexivity|]. split; [|reflexivity]. split; [cbn; eauto|]. split; [reflexivity|]. split; [reflexivity|]. exact F.
  Qed.
  Lemma flatten_flat : flat_doc out.
  Proof.
    destruct flatten_ok as (m & Em & Eo). pose proof (tr_doc_fine T) as Ft.
    destruct (flatten_map_spec fin rnd pg pn po Hg Hn Ho _ m Em) as (out' & E' & N & M). rewrite Eo in E'. injection E' as <-. split; [exact N|].
    intros x I. apply M in I. destruct I as (k & X & _). destruct (final_shape fin rnd pn _ m Em k x X) as (A & B & C). split; [|].
    - split; [eauto|]. split; [exact B|]. split; [exact C|]. intros p l y J K. destruct (final_props fin rnd pn m k x p l X J) as (x' & S & J'). exact (stored_flat fin rnd _ m Ft Em None k x' S p l y J' K).
    - pose proof (final_graph fin rnd pn Hn _ m Ft Em k x X) as G. destruct (n_graph (snd x)) as [v|]; [|split; [constructor|intros y []]].
      destruct G as (_ & Nv & G). split; [exact Nv|]. intros y J. apply G in J. destruct J as (j & x' & S & J). exact (sub_flat m j x' y Em (Some k) S J).
  Qed.

  (** ** What the flattened document says *)
  Lemma flat_ref : forall o x, flat_value (x, o) -> ref_o x o = (x, o).
  Proof.
    refine (proj1 (obj_node_ind (fun o => forall x, flat_value (x, o) -> ref_o x o = (x, o)) (fun _ => True) _ _ _ _)); auto.
    - intros n _ x F. inversion F; subst. reflexivity.
    - intros l IH x F. inversion F as [| |? ? F']; subst. cbn. f_equal. f_equal. rewrite <- (map_id l) at 2. apply map_ext_in. intros [z o] I. cbn. apply (Forall_in _ _ _ IH I). exact (Forall_in _ _ _ F' I).
  Qed.
  Lemma flat_ref_i y : flat_value y -> ref_i y = y. Proof. destruct y as [x o]. apply flat_ref. Qed.
  Lemma flat_occurs : forall o x a w b z n, flat_value (x, o) -> occurs a w o b z n -> exists i, n = node_new (Some i).
  Proof.
    refine (proj1 (obj_node_ind (fun o => forall x a w b z n, flat_value (x, o) -> occurs a w o b z n -> exists i, n = node_new (Some i)) (fun _ => True) _ _ _ _)); auto.
    - intros v x a w b z n _ O. inversion O.
    - intros n _ x a w b z n' F O. inversion F; subst. inversion O as [? ? ? ? ? ? O'|]; subst.
      inversion O' as [|? ? ? j y ? ? ? _ I|? ? ? y ? ? ? I|? ? ? p y ? ? ? I|? ? ? p y ? ? ? I]; subst; eauto; contradiction.
    - intros l IH x a w b z n F O. inversion F as [| |? ? F']; subst. inversion O as [|? ? ? y ? ? ? I O']; subst.
      apply (Forall_in _ _ _ IH I (fst y) a (fst y) b z n); [|exact O']. rewrite <- surjective_pairing. exact (Forall_in _ _ _ F' I).
  Qed.
  (** The nodes of the flattened document which are not references. *)
  Lemma flat_doc_occurs a z n : occurs_in (as_doc out) a z n -> (exists i, n = node_new (Some i)) \/
    (a = None /\ In (z, n) out) \/ exists x g, a = Some g /\ In x out /\ n_id (snd x) = Some g /\ In (z, ONode n) (opt_list (n_graph (snd x))).
  Proof.
    intros (y & I & O). destruct flatten_flat as [_ F]. apply in_map_iff in I. destruct I as (x & <- & I). cbn in O. inversion O as [? ? ? ? ? ? O'|]; subst.
    destruct (F x I) as ((_ & Fi & Fr & Fp) & _ & Fg).
    assert (Leaf : forall g w k b' z' n', (forall p l y, In (p, l) (n_props k) -> In y l -> flat_value y) -> n_included k = None -> n_reverse k = None -> n_graph k = None ->
      occurs_node g w k b' z' n' -> (g = b' /\ w = z' /\ k = n') \/ exists i, n' = node_new (Some i)).
    { intros g w k b' z' n' Lp Li Lr Lg Oc. inversion Oc as [|? ? ? j y ? ? ? Ej J O''|? ? ? y ? ? ? J O''|? ? ? p y ? ? ? J J' O''|? ? ? p y ? ? ? J J' O'']; subst; auto.
      - rewrite Lg in J. contradiction.
      - rewrite Li in J. contradiction.
      - right. destruct p as [p l]. apply (flat_occurs (snd y) (fst y) g (fst y) b' z' n'); [rewrite <- surjective_pairing; eapply Lp; eassumption|exact O''].
      - rewrite Lr in J. contradiction. }
    inversion O' as [|? ? ? j y ? ? ? Ej J O''|? ? ? y ? ? ? J O''|? ? ? p y ? ? ? J J' O''|? ? ? p y ? ? ? J J' O'']; subst.
    - right; left. split; [reflexivity|]. rewrite <- surjective_pairing. exact I.
    - destruct (Fg y J) as (k & Ek & (_ & Ki & Kr & Kp) & Kg). rewrite Ek in O''. inversion O'' as [? ? ? ? ? ? O3|]; subst.
      destruct (Leaf _ _ _ _ _ _ Kp Ki Kr Kg O3) as [(<- & <- & <-)|L]; [|auto]. right; right. exists x, j. rewrite <- Ek, <- surjective_pairing. auto.
    - rewrite Fi in J. contradiction.
    - left. destruct p as [p l]. apply (flat_occurs (snd y) (fst y) None (fst y) a z n); [rewrite <- surjective_pairing; eapply Fp; eassumption|exact O''].
    - rewrite Fr in J. contradiction.
  Qed.
  (** Nodes of the map, and where they are in the flattened document. *)
  Lemma output_none m : do_ops fin rnd nmap0 (tr_doc T) = Ok m -> forall k x, stored m None k x -> fst x <> None \/ n_props (snd x) <> [] \/ n_types (snd x) <> None ->
    exists x', In x' out /\ n_id (snd x') = Some k /\ fst x' = fst x /\ n_props (snd x') = n_props (snd x) /\ n_types (snd x') = n_types (snd x).
  Proof.
    intros Em k x S H. destruct flatten_ok as (m' & Em' & Eo). rewrite Em in Em'. injection Em' as <-.
    destruct (flatten_map_spec fin rnd pg pn po Hg Hn Ho _ m Em) as (out' & E' & N & M). rewrite Eo in E'. injection E' as <-.
    destruct (final_of fin rnd pn m k x S) as (x' & X & A & B & C). exists x'. split; [|split; [apply (final_shape fin rnd pn _ m Em k x' X)|auto]].
    apply M. exists k. split; [exact X|]. unfold filter_graph. destruct (fst x') eqn:Z; [left; reflexivity|].
    assert (Y : node_empty (snd x') = false).
    { destruct (snd x') as [i ts g inc ps rs]; cbn in *. destruct H as [H|[H|H]]; [congruence|destruct ts, g, inc, ps, rs; congruence|destruct ts; [reflexivity|congruence]]. }
    rewrite Y. left. reflexivity.
  Qed.
  Lemma output_some m : do_ops fin rnd nmap0 (tr_doc T) = Ok m -> forall g k x, stored m (Some g) k x -> fst x <> None \/ n_props (snd x) <> [] ->
    exists x' n, In x' out /\ n_id (snd x') = Some g /\ In (fst x, ONode n) (opt_list (n_graph (snd x'))) /\ n_id n = Some k /\ n_props n = n_props (snd x) /\ n_types n = n_types (snd x).
  Proof.
    intros Em g k x S H. destruct flatten_ok as (m' & Em' & Eo). rewrite Em in Em'. injection Em' as <-. pose proof (tr_doc_fine T) as Ft.
    destruct (flatten_map_spec fin rnd pg pn po Hg Hn Ho _ m Em) as (out' & E' & N & M). rewrite Eo in E'. injection E' as <-.
    assert (G : exists gr, get_id g (snd m) = Some gr). { unfold stored, at_node in S. cbn in S. destruct (get_id g (snd m)); [eauto|discriminate]. }
    destruct G as (gr & G). assert (X : exists x', final fin rnd pn m g = Some x') by (unfold final; rewrite G; eauto). destruct X as (x' & X).
    pose proof (final_graph fin rnd pn Hn _ m Ft Em g x' X) as V. destruct (n_graph (snd x')) as [v|] eqn:Ev.
    2: { contradiction V. apply (map_graph fin rnd _ m Em). congruence. }
    destruct V as (_ & _ & V). destruct (stored_shape fin rnd _ m Em _ _ _ S) as (Ik & _). destruct x as [z [i ts gg inc ps rs]]. cbn in Ik, H. subst i.
    exists x', (MkNode (Some k) ts None None ps None). split; [|split; [apply (final_shape fin rnd pn _ m Em g x' X)|split]].
    - apply M. exists g. split; [exact X|]. unfold filter_graph. destruct (fst x'); [left; reflexivity|]. destruct (snd x') as [? ts0 ? ? ? ?]; cbn in Ev; subst. destruct ts0; left; reflexivity.
    - rewrite Ev. apply V. exists k, (z, MkNode (Some k) ts gg inc ps rs). split; [exact S|]. cbn. destruct z; [left; reflexivity|]. destruct ps; [destruct H; congruence|left; reflexivity].
    - auto.
  Qed.
  Lemma output_stored m a z n : do_ops fin rnd nmap0 (tr_doc T) = Ok m -> occurs_in (as_doc out) a z n -> (exists i, n = node_new (Some i)) \/
    exists k, n_id n = Some k /\ n_reverse n = None /\ (forall p l, In (p, l) (n_props n) -> exists x, stored m a k x /\ In (p, l) (n_props (snd x)))
      /\ (forall ts, n_types n = Some ts -> exists x, stored m a k x /\ n_types (snd x) = Some ts).
  Proof.
    intros Em O. destruct flatten_ok as (m' & Em' & Eo). rewrite Em in Em'. injection Em' as <-. pose proof (tr_doc_fine T) as Ft.
    destruct (flatten_map_spec fin rnd pg pn po Hg Hn Ho _ m Em) as (out' & E' & N & M). rewrite Eo in E'. injection E' as <-.
    destruct (flat_doc_occurs a z n O) as [H|[(-> & I)|(x & g & -> & I & Ig & J)]]; [auto|right..].
    - apply M in I. destruct I as (k & X & _). destruct (final_shape fin rnd pn _ m Em k _ X) as (A & _ & C). exists k. split; [exact A|]. split; [exact C|]. split.
      + intros p l K. exact (final_props fin rnd pn m k _ p l X K).
      + intros ts K. exact (final_types fin rnd pn m k _ ts X K).
    - apply M in I. destruct I as (g' & X & _). destruct (final_shape fin rnd pn _ m Em g' _ X) as (A & _ & _). rewrite A in Ig. injection Ig as ->.
      pose proof (final_graph fin rnd pn Hn _ m Ft Em g x X) as V. destruct (n_graph (snd x)) as [v|]; [|contradiction]. destruct V as (_ & _ & V). apply V in J. destruct J as (k & y & S & J).
      destruct (stored_shape fin rnd _ m Em _ _ _ S) as (Ik & _). destruct y as [w [i ts gg inc ps rs]]. cbn in Ik. subst i. exists k.
      assert (Q : n = MkNode (Some k) ts None None ps None). { cbn in J. destruct w; [destruct J as [J|[]]; congruence|]. destruct ps; [contradiction|]. destruct J as [J|[]]; congruence. }
      subst n. split; [reflexivity|]. split; [reflexivity|]. split.
      + intros p l K. eexists. split; [exact S|exact K].
      + intros ts' K. eexists. split; [exact S|exact K].
  Qed.
  Lemma equivalent_same w y : flat_value w -> flat_value y -> equivalent fin rnd w y = true -> same_i w y.
  Proof.
    intros Fw Fy Q. unfold equivalent in Q. apply andb_true_iff in Q. destruct Q as [Q1 Q2]. split; [apply opt_streq, Q1|].
    destruct Fw as [x v|i|x l], Fy as [x' v'|i'|x' l']; cbn [fst snd] in *; try discriminate.
    - constructor. apply value_eqb_spec, Q2.
    - cbn in Q2. unfold reference in *. cbn [snd] in *. replace i' with i; [apply same_refl|].
      assert (Z : node_eqb fin rnd (node_new (Some i)) (node_new (Some i')) = true) by exact Q2. apply node_eqb_id in Z. injection Z as ->. reflexivity.
  Qed.
  Lemma ops_flat a i p ws y : In (OProps a i p ws) (tr_doc T) -> In y ws -> flat_value y.
  Proof. intros I J. destruct (fine_in _ _ _ (tr_doc_fine T) I) as (P & _ & (_ & _ & Q)). exact (Forall_in _ _ _ Q J). Qed.

  Hypothesis Id : idd_doc T.
  Lemma flatten_says_sound a i p o : says (as_doc out) a i p o -> says T a i p o.
  Proof.
    destruct flatten_ok as (m & Em & _). intros (z & n & O & H). destruct (output_stored m a z n Em O) as [(k & ->)|(k & Ek & Er & Ps & _)].
    - exfalso. destruct H as [(_ & l & y & [] & _)|(l & y & j & [] & _)].
    - destruct H as [(Ei & l & y & K & J & ->)|(l & y & j & K & _)]; [|rewrite Er in K; contradiction].
      rewrite Ek in Ei. injection Ei as ->. destruct (Ps p l K) as (x & S & K'). unfold stored in S. rewrite (map_at fin rnd _ m Em) in S. destruct x as [w n'].
      destruct (F_props_sound _ _ _ _ _ _ _ _ _ _ S K' J) as (ws & A & B). rewrite flat_ref_i by (exact (ops_flat _ _ _ _ _ A B)). eapply props_said; eassumption.
  Qed.
  Lemma out_occurs_none x : In x out -> occurs_in (as_doc out) None (fst x) (snd x).
  Proof. intros I. exists (fst x, ONode (snd x)). split; [apply in_map_iff; exists x; auto|]. constructor. constructor. Qed.
  Lemma out_occurs_some x g z n : In x out -> n_id (snd x) = Some g -> In (z, ONode n) (opt_list (n_graph (snd x))) -> occurs_in (as_doc out) (Some g) z n.
  Proof. intros I G J. exists (fst x, ONode (snd x)). split; [apply in_map_iff; exists x; auto|]. constructor. eapply OcGraph; [exact G|exact J|]. constructor. constructor. Qed.
  Lemma flatten_says_complete a i p o : says T a i p o -> exists o', says (as_doc out) a i p o' /\ same_i o' o.
  Proof.
    destruct flatten_ok as (m & Em & _). intros H. destruct (said_props T a i p o Id H) as (ws & A & B).
    destruct (F_props_complete fin rnd a i _ (tr_doc_fine T) p ws o A B) as (z & n & vs & w & Ef & K & J & Q). rewrite <- (map_at fin rnd _ m Em) in Ef.
    assert (Fw : flat_value w) by exact (stored_flat fin rnd _ m (tr_doc_fine T) Em a i (z, n) Ef p vs w K J).
    exists w. split.
    - destruct a as [g|].
      + destruct (output_some m Em g i (z, n) Ef) as (x' & n' & I & G & V & I' & P & _); [right; cbn; intros X; rewrite X in K; contradiction|].
        exists z, n'. split; [eapply out_occurs_some; eassumption|]. left. split; [exact I'|]. exists vs, w. cbn in P. rewrite P. rewrite flat_ref_i by exact Fw. auto.
      + destruct (output_none m Em i (z, n) Ef) as (x' & I & I' & _ & P & _); [right; left; cbn; intros X; rewrite X in K; contradiction|].
        exists (fst x'), (snd x'). split; [apply out_occurs_none, I|]. left. split; [exact I'|]. exists vs, w. cbn in P. rewrite P. rewrite flat_ref_i by exact Fw. auto.
    - destruct Q as [->|Q]; [split; [reflexivity|apply same_refl]|]. apply equivalent_same; [exact Fw|exact (ops_flat _ _ _ _ _ A B)|exact Q].
  Qed.
  Lemma flatten_types_sound a i t : says_type (as_doc out) a i t -> says_type T a i t.
  Proof.
    destruct flatten_ok as (m & Em & _). intros (z & n & O & Ei & H). destruct (output_stored m a z n Em O) as [(k & ->)|(k & Ek & Er & _ & Ts)]; [contradiction|].
    rewrite Ek in Ei. injection Ei as ->. destruct (n_types n) as [ts|] eqn:Et; [|contradiction]. destruct (Ts ts eq_refl) as ([w n'] & S & K). unfold stored in S. rewrite (map_at fin rnd _ m Em) in S.
    pose proof (F_types_sound _ _ _ _ _ _ _ _ S K) as I. apply (types_ops T _ _ _ Id) in I. destruct I as (z' & n0 & O' & I' & E'). exists z', n0. rewrite E'. auto.
  Qed.
  Lemma flatten_types_complete a i t : says_type T a i t ->
    (forall z n z' n' ts ts', occurs_in T a z n -> n_id n = Some i -> n_types n = Some ts -> occurs_in T a z' n' -> n_id n' = Some i -> n_types n' = Some ts' -> ts = ts') ->
    (a = None \/ (exists p o, says T a i p o) \/ exists x n, occurs_in T a (Some x) n /\ n_id n = Some i) -> says_type (as_doc out) a i t.
  Proof.
    destruct flatten_ok as (m & Em & _). intros (z & n & O & Ei & H) U Kp. destruct (n_types n) as [ts|] eqn:Et; [|contradiction].
    assert (I : In (OTypes a i ts) (tr_doc T)) by (apply (types_ops T _ _ _ Id); eauto).
    destruct (F_types_complete fin rnd a i _ (tr_doc_fine T) ts I) as (z' & n' & ts' & S & Et'). pose proof (F_types_sound _ _ _ _ _ _ _ _ S Et') as I'. apply (types_ops T _ _ _ Id) in I'.
    destruct I' as (z2 & n2 & O2 & E2 & T2). rewrite (U _ _ _ _ _ _ O Ei Et O2 E2 T2) in *. rewrite <- (map_at fin rnd _ m Em) in S.
    destruct a as [g|].
    - destruct (output_some m Em g i (z', n') S) as (x' & n3 & J & G & V & I3 & _ & T3).
      + destruct Kp as [X|[(p & o & X)|(x & n0 & X & X')]]; [discriminate| |].
        * right. destruct (said_props T _ _ _ _ Id X) as (ws & A & B). destruct (F_props_complete fin rnd (Some g) i _ (tr_doc_fine T) p ws o A B) as (z0 & n0 & vs & w & Ef & K & _).
          rewrite <- (map_at fin rnd _ m Em) in Ef. rewrite S in Ef. injection Ef as <- <-. cbn. intros Y. rewrite Y in K. contradiction.
        * left. assert (D : In (ODeclare (Some g) i (Some x)) (tr_doc T)) by (apply (declare_ops T _ _ _ Id); eauto).
          destruct (do_ops_index fin rnd _ _ _ Em (Some g) i x (or_intror D)) as (n1 & X1). rewrite S in X1. injection X1 as -> _. discriminate.
      + exists z', n3. split; [eapply out_occurs_some; eassumption|]. split; [exact I3|]. cbn in T3. rewrite T3, Et'. exact H.
    - destruct (output_none m Em i (z', n') S) as (x' & J & I3 & _ & _ & T3); [right; right; cbn; congruence|].
      exists (fst x'), (snd x'). split; [apply out_occurs_none, J|]. split; [exact I3|]. cbn in T3. rewrite T3, Et'. exact H.
  Qed.
End Flat.

Theorem C27_flat : forall fin rnd pg pn po gen d out, any_order pg -> (forall a, any_order (pn a)) -> any_order po ->
  flatten fin rnd pg pn po gen d = Ok out -> flat_doc out.
Proof. intros. eapply flatten_flat; eassumption. Qed.
Print Assumptions C27_flat.

(** Nesting, a list, a reverse property, an included node and a named graph. *)
Definition keep_order {A} (l : list A) : list A := l.
Definition str (s : string) : iobj := (None, OVal (VLit (LStr s) None)).
Definition nested_doc : list iobj :=
  [(Some "x", ONode (MkNode (Some (IIri "http://a/")) (Some [IIri "http://t/"]) (Some [(None, ONode (MkNode (Some (IBlank "_:b")) None None None [(IIri "http://p/", [str "v"])] None))])
      (Some [(None, MkNode None None None None [(IIri "http://p/", [str "w"])] None)])
      [(IIri "http://q/", [(None, OList [(None, ONode (MkNode (Some (IBlank "_:b")) None None None [(IIri "http://p/", [str "u"; str "u"])] None))]); str "s"])]
      (Some [(IIri "http://r/", [(None, node_new (Some (IBlank "_:b")))])])))].
Definition ref (i : id) : iobj := (None, ONode (node_new (Some i))).
Definition nested_out : list inode :=
  [(Some "x", MkNode (Some (IIri "http://a/")) (Some [IIri "http://t/"]) (Some [(None, ONode (MkNode (Some (IBlank "_:g0")) None None None [(IIri "http://p/", [str "v"])] None))])
      None [(IIri "http://q/", [(None, OList [ref (IBlank "_:g0")]); str "s"])] None);
   (None, MkNode (Some (IBlank "_:g1")) None None None [(IIri "http://p/", [str "w"])] None);
   (None, MkNode (Some (IBlank "_:g0")) None None None [(IIri "http://p/", [str "u"]); (IIri "http://r/", [ref (IIri "http://a/")])] None)].
Example C27_example : flatten word_fin word_fin keep_order (fun _ => keep_order) keep_order gen_b nested_doc = Ok nested_out.
Proof. vm_compute. reflexivity. Qed.

(** ** C28 *)
(** For every document, every order of the hash maps and every generator that neither repeats nor
    gives an IRI of the document, when flattening succeeds: naming the nodes of the document by [f]
    and [A], without confusing any two, gives a document [T] such that
    - the flattened document says exactly the (subject, property, object) statements of each graph
      of [T], up to equality of objects;
    - it says no (subject, type) statement that [T] does not say;
    - it says those of the nodes of the default graph, of the nodes with an index and of the nodes
      with a property, as long as all the occurrences of the node that have types have the same.
    Missing for C28: the other types (see below). *)
Theorem C28_partial : forall fin rnd pg pn po gen d out, any_order pg -> (forall a, any_order (pn a)) -> any_order po ->
  never_repeats gen -> (forall k, named_in d (gen k) -> exists b, gen k = IBlank b) ->
  flatten fin rnd pg pn po gen d = Ok out ->
  exists f A T, ren_doc f d T A /\ no_confusion d f A /\
    (forall a i p o, says (as_doc out) a i p o -> says T a i p o) /\
    (forall a i p o, says T a i p o -> exists o', says (as_doc out) a i p o' /\ same_i o' o) /\
    (forall a i t, says_type (as_doc out) a i t -> says_type T a i t) /\
    (forall a i t, says_type T a i t ->
      (forall z n z' n' ts ts', occurs_in T a z n -> n_id n = Some i -> n_types n = Some ts -> occurs_in T a z' n' -> n_id n' = Some i -> n_types n' = Some ts' -> ts = ts') ->
      (a = None \/ (exists p o, says T a i p o) \/ exists x n, occurs_in T a (Some x) n /\ n_id n = Some i) -> says_type (as_doc out) a i t).
Proof.
  intros fin rnd pg pn po gen d out Hg Hn Ho G Fr E. destruct (relabelled gen d G Fr) as (f & A & R & C).
  exists f, A, (fst (relabel_l gen (assign_id gen) ide ide env0 d)). split; [exact R|]. split; [exact C|]. pose proof (ren_doc_idd _ _ _ _ R) as Id.
  split; [|split; [|split]]; intros.
  - eapply flatten_says_sound; eassumption.
  - eapply flatten_says_complete; eassumption.
  - eapply flatten_types_sound; eassumption.
  - eapply flatten_types_complete; eassumption.
Qed.
Print Assumptions C28_partial.

(** Types are lost: those of an earlier occurrence of the same node, and those of a node of a named
    graph that has no property. *)
Definition typed (t : string) : iobj := (None, ONode (MkNode (Some (IIri "http://a/")) (Some [IIri t]) None None [] None)).
Definition lost_doc : list iobj := [typed "http://t/"; typed "http://u/"].
Definition lost_graph_doc : list iobj := [(None, ONode (MkNode (Some (IIri "http://g/")) None (Some [typed "http://t/"]) None [] None))].
Theorem C28_refuted : exists out out',
  flatten word_fin word_fin keep_order (fun _ => keep_order) keep_order gen_b lost_doc = Ok out /\
  flatten word_fin word_fin keep_order (fun _ => keep_order) keep_order gen_b lost_graph_doc = Ok out' /\
  says_type lost_doc None (IIri "http://a/") (IIri "http://t/") /\ ~ says_type (as_doc out) None (IIri "http://a/") (IIri "http://t/") /\
  says_type lost_graph_doc (Some (IIri "http://g/")) (IIri "http://a/") (IIri "http://t/") /\ ~ says_type (as_doc out') (Some (IIri "http://g/")) (IIri "http://a/") (IIri "http://t/").
Proof.
  do 2 eexists. split; [vm_compute; reflexivity|]. split; [vm_compute; reflexivity|]. split; [|split; [|split]].
  - do 2 eexists. split; [exists (typed "http://t/"); split; [left; reflexivity|]; constructor; constructor|]. split; [reflexivity|left; reflexivity].
  - intros (z & n & (y & I & O) & _ & J). destruct I as [<-|[]]. inversion O as [? ? ? ? ? ? O'|]; subst.
    inversion O' as [|? ? ? j w ? ? ? _ I|? ? ? w ? ? ? I|? ? ? p w ? ? ? I|? ? ? p w ? ? ? I]; subst; try contradiction. destruct J as [J|[]]. discriminate.
  - do 2 eexists. split; [eexists; split; [left; reflexivity|]; constructor; eapply OcGraph; [reflexivity|left; reflexivity|]; constructor; constructor|]. split; [reflexivity|left; reflexivity].
  - intros (z & n & (y & I & O) & _ & J). destruct I as [<-|[]]. inversion O as [? ? ? ? ? ? O'|]; subst.
    inversion O' as [|? ? ? j w ? ? ? _ I|? ? ? w ? ? ? I|? ? ? p w ? ? ? I|? ? ? p w ? ? ? I]; subst; contradiction.
Qed.
Print Assumptions C28_refuted.
(** What [nested_doc] says of [_:b] in the default graph (through the list) is what [nested_out] says of [_:g0]. *)
Example C28_example : says nested_doc None (IBlank "_:b") (IIri "http://r/") (ref (IIri "http://a/")) /\
  says (as_doc nested_out) None (IBlank "_:g0") (IIri "http://r/") (ref (IIri "http://a/")) /\
  says nested_doc None (IBlank "_:b") (IIri "http://p/") (str "u") /\ says (as_doc nested_out) None (IBlank "_:g0") (IIri "http://p/") (str "u").
Proof.
  split; [|split; [|split]].
  - do 2 eexists. split; [eexists; split; [left; reflexivity|]; constructor; constructor|]. right. do 3 eexists. split; [left; reflexivity|]. split; [left; reflexivity|]. repeat split.
  - do 2 eexists. split; [eexists; split; [right; right; left; reflexivity|]; constructor; constructor|]. left. split; [reflexivity|]. do 2 eexists. split; [right; left; reflexivity|]. split; [left; reflexivity|reflexivity].
  - do 2 eexists. split; [eexists; split; [left; reflexivity|]; constructor; eapply OcProp; [left; reflexivity|left; reflexivity|]; eapply OcList; [left; reflexivity|]; constructor; constructor|].
    left. split; [reflexivity|]. do 2 eexists. split; [left; reflexivity|]. split; [left; reflexivity|reflexivity].
  - do 2 eexists. split; [eexists; split; [right; right; left; reflexivity|]; constructor; constructor|]. left. split; [reflexivity|]. do 2 eexists. split; [left; reflexivity|]. split; [left; reflexivity|reflexivity].
Qed.

(** ** C29 *)
(** Flattening fails exactly when a node of a graph occurs there with two different indexes; the
    error gives two such indexes, and flattening never panics. *)
Theorem C29_conflicts : forall fin rnd pg pn po gen d, any_order pg -> (forall a, any_order (pn a)) -> any_order po ->
  never_repeats gen -> (forall k, named_in d (gen k) -> exists b, gen k = IBlank b) ->
  exists f A T, ren_doc f d T A /\ no_confusion d f A /\
    ((exists e, flatten fin rnd pg pn po gen d = Err e) <-> conflicting T) /\
    (forall e, flatten fin rnd pg pn po gen d = Err e -> exists i x y a n m, e = FConflict i x y /\ x <> y /\
      occurs_in T a (Some x) n /\ occurs_in T a (Some y) m /\ n_id n = Some i /\ n_id m = Some i).
Proof.
  intros fin rnd pg pn po gen d Hg Hn Ho G Fr. destruct (relabelled gen d G Fr) as (f & A & R & C).
  set (T := fst (relabel_l gen (assign_id gen) ide ide env0 d)) in *. pose proof (ren_doc_idd _ _ _ _ R) as Id.
  exists f, A, T. split; [exact R|]. split; [exact C|].
  assert (X : forall e, flatten fin rnd pg pn po gen d = Err e -> exists i x y a n m, e = FConflict i x y /\ x <> y /\
      occurs_in T a (Some x) n /\ occurs_in T a (Some y) m /\ n_id n = Some i /\ n_id m = Some i).
  { intros e E. unfold flatten in E. rewrite node_map_trace in E. fold T in E. destruct (do_ops fin rnd nmap0 (tr_doc T)) as [m|e'] eqn:Em; cbn in E.
    - destruct (flatten_map_spec fin rnd pg pn po Hg Hn Ho _ m Em) as (out & E' & _). congruence.
    - injection E as ->. destruct e as [i x y|].
      + destruct (do_ops_conflict fin rnd (tr_doc T) nmap0 [] i x y) as (N & a & I & J); [intros [|] ? ? ? H; discriminate|exact Em|]. cbn in I, J.
        apply (declare_ops T _ _ _ Id) in I. apply (declare_ops T _ _ _ Id) in J. destruct I as (n & O & Ei), J as (m & O' & Ei'). exists i, x, y, a, n, m. auto 7.
      + exfalso. apply (do_ops_panic fin rnd (tr_doc T) nmap0 []); [split; [intros [|]; cbn; [intros []|discriminate]|intros ? ? (? & [])]|apply tr_doc_fine|exact Em]. }
  split; [|exact X]. split.
  - intros (e & E). destruct (X e E) as (i & x & y & a & n & m & _ & N & O & O' & Ei & Ei'). exists a, i, n, m, x, y. auto 7.
  - intros (a & i & n & m & x & y & O & O' & Ei & Ei' & N). destruct (flatten fin rnd pg pn po gen d) as [out|e] eqn:E; [|eauto]. exfalso.
    destruct (flatten_ok fin rnd pg pn po gen d out E) as (mp & Em & _).
    assert (I : In (ODeclare a i (Some x)) (tr_doc T)) by (apply (declare_ops T _ _ _ Id); eauto).
    assert (J : In (ODeclare a i (Some y)) (tr_doc T)) by (apply (declare_ops T _ _ _ Id); eauto).
    destruct (do_ops_index fin rnd _ _ _ Em a i x (or_intror I)) as (n1 & X1), (do_ops_index fin rnd _ _ _ Em a i y (or_intror J)) as (n2 & X2). congruence.
Qed.
Print Assumptions C29_conflicts.
(** [_:b] with two indexes, in the default graph; with the second one in another graph. *)
Definition indexed_node (x : string) : iobj := (Some x, ONode (MkNode (Some (IBlank "_:b")) None None None [(IIri "http://p/", [str "v"])] None)).
Definition conflict_doc (nested : bool) : list iobj :=
  [indexed_node "x"; (None, ONode (MkNode None None (if nested then Some [indexed_node "y"] else None) None (if nested then [] else [(IIri "http://q/", [indexed_node "y"])]) None))].
Example C29_example :
  flatten word_fin word_fin keep_order (fun _ => keep_order) keep_order gen_b (conflict_doc false) = Err (FConflict (IBlank "_:g0") "x" "y") /\
  flatten word_fin word_fin keep_order (fun _ => keep_order) keep_order gen_b (conflict_doc true) =
    Ok [(Some "x", MkNode (Some (IBlank "_:g0")) None None None [(IIri "http://p/", [str "v"])] None);
        (None, MkNode (Some (IBlank "_:g1")) None (Some [(Some "y", ONode (MkNode (Some (IBlank "_:g0")) None None None [(IIri "http://p/", [str "v"])] None))]) None [] None)].
Proof. vm_compute. split; reflexivity. Qed.

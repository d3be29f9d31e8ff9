(** Active contexts that answer alike, and compaction: used for C97. *)
From Verif Require Import Prelude Str Keyword Enums LangTag LangString Container Stack ContextSyntax Ctx Process ProcessRel Json Object ObjectJson Inverse
  CompactIri CompactIriProofs Expand Compact Interchange.

(** ** Specification *)

(** The contexts compaction may use when it starts with [c0]. *)
Inductive used (io : iops) (ld : loader) (pf : nat) (c0 : actx) : actx -> Prop :=
| UsStart : used io ld pf c0 c0
| UsPrevious c p : used io ld pf c0 c -> ac_prev c = Some p -> used io ld pf c0 p
| UsScoped dc c k d lc po c' : used io ld pf c0 dc -> used io ld pf c0 c -> get_normal dc k = Some d -> nd_context d = Some lc ->
    process_full io ld pf c lc (nd_base_url d) po = Ok c' -> used io ld pf c0 c'.

(** Whatever is compacted, one of the compact IRIs available, if any, beats all the others. *)
Definition settled (c : actx) : Prop := forall var no_value, decided c var no_value.

(** ** Proof *)
Lemma alike_perm c c' : answers_alike c c' -> Permutation (ac_defs c) (ac_defs c').
Proof.
  intros H. apply NoDup_Permutation; [eapply NoDup_map_inv, (al_once H)|eapply NoDup_map_inv, (al_once' H)|]. intros [k d]. split; intros I.
  - apply get_in. rewrite <- (al_get H). apply prot_in; [exact I|exact (al_once H)].
  - apply get_in. rewrite (al_get H). apply prot_in; [exact I|exact (al_once' H)].
Qed.
Lemma alike_iri rel c c' m var value vocab rev : answers_alike c c' -> settled c ->
  compact_iri_full rel c m var value vocab rev = compact_iri_full rel c' m var value vocab rev.
Proof.
  intros H S. rewrite <- (perm_compact rel c _ (al_once H) (alike_perm _ _ H) m var value vocab rev (S _ _)) by (intros; apply S).
  destruct H as [c c' E1 E2 E3 E4 E5 E6 _ _ _ _]. destruct c, c'. cbn in E1, E2, E3, E4, E5, E6. subst. reflexivity.
Qed.
Lemma alike_iri_none rel c c' m var vocab rev : answers_alike c c' -> settled c ->
  compact_iri rel c m var vocab rev = compact_iri rel c' m var vocab rev.
Proof.
  assert (X : forall c, compact_iri rel c m var vocab rev = compact_iri_full rel c m var None vocab rev) by (intros; destruct rev; reflexivity).
  rewrite !X. apply alike_iri.
Qed.

Lemma map_ext_r {A B E} (f g : A -> result B E) l : (forall x, f x = g x) -> map_r f l = map_r g l.
Proof. intros H. induction l as [|x l IH]; cbn [map_r]; [reflexivity|]. rewrite H, IH. reflexivity. Qed.

Section Compaction.
Variable io : iops.
Variable ld : loader.
Variable rel : string -> string -> string.
Variable pf : nat.
Variable o : copts.
Variable c0 : actx.
Hypothesis HS : forall c, used io ld pf c0 c -> settled c.

Definition both (c c' : actx) : Prop := answers_alike c c' /\ used io ld pf c0 c.

Lemma ic_iri c c' t v : both c c' -> kiri rel o c t v = kiri rel o c' t v.
Proof. intros [H U]. unfold kiri. rewrite (alike_iri_none _ _ _ _ _ _ _ H (HS _ U)). reflexivity. Qed.
Lemma ic_iri_with c c' t x r : both c c' -> kiri_with rel o c t x r = kiri_with rel o c' t x r.
Proof. intros [H U]. unfold kiri_with. rewrite (alike_iri _ _ _ _ _ _ _ _ H (HS _ U)). reflexivity. Qed.
Lemma ic_key c c' k : both c c' -> kkey rel o c k = kkey rel o c' k.
Proof. intros H. unfold kkey. rewrite (ic_iri _ _ _ _ H). reflexivity. Qed.
Lemma ic_put c c' k v m : both c c' -> put rel o c k v m = put rel o c' k v m.
Proof. intros H. unfold put. rewrite (ic_key _ _ _ H). reflexivity. Qed.
Lemma ic_def c c' ap : both c c' -> prop_def c ap = prop_def c' ap.
Proof. intros [H _]. apply ix_def, H. Qed.
Lemma ic_container c c' k : both c c' -> container_of c k = container_of c' k.
Proof. intros [H _]. unfold container_of. rewrite ?(al_get H), ?(al_type H). reflexivity. Qed.
Lemma ic_container_ap c c' ap : both c c' -> container_ap c ap = container_ap c' ap.
Proof. intros H. unfold container_ap. destruct ap; [apply ic_container, H|reflexivity]. Qed.
Lemma ic_value c c' k : both c c' -> get_value c k = get_value c' k.
Proof. intros [H _]. apply al_value, H. Qed.
Lemma ic_prev c c' : both c c' -> both (match ac_prev c with Some p => p | None => c end) (match ac_prev c' with Some p => p | None => c' end).
Proof.
  intros [H U]. pose proof (al_prev H) as P. destruct (ac_prev c) as [p|] eqn:E; inversion P as [|? p' Q]; subst; [|split; assumption].
  split; [assumption|]. exact (UsPrevious _ _ _ _ _ _ U E).
Qed.
Lemma ic_process dc dc' c c' ap po : both dc dc' -> both c c' ->
  outcomes both
    (match prop_def dc ap with Some d => match nd_context d with Some lc => kprocess io ld pf c lc (nd_base_url d) po | None => Ok c end | None => Ok c end)
    (match prop_def dc' ap with Some d => match nd_context d with Some lc => kprocess io ld pf c' lc (nd_base_url d) po | None => Ok c' end | None => Ok c' end).
Proof.
  intros D H. rewrite <- (ic_def _ _ _ D). destruct (prop_def dc ap) as [d|] eqn:E; [|constructor; exact H]. destruct (nd_context d) as [lc|] eqn:L; [|constructor; exact H].
  unfold kprocess. pose proof (process_alike io ld pf _ _ lc (nd_base_url d) po (proj1 H)) as P.
  destruct (process_full io ld pf c lc (nd_base_url d) po) as [x|] eqn:X; inversion P as [? x' Q|]; subst; cbn [map_err]; constructor. split; [exact Q|].
  destruct ap as [k|]; cbn [prop_def] in E; [|discriminate]. destruct (streq k "@type"); [discriminate|]. exact (UsScoped _ _ _ _ _ _ _ _ _ _ _ (proj2 D) (proj2 H) E L X).
Qed.
Lemma ic_scoped dc dc' c c' ap : both dc dc' -> both c c' -> outcomes both (scoped io ld pf o dc c ap) (scoped io ld pf o dc' c' ap).
Proof. intros D H. apply ic_process; assumption. Qed.

Lemma ic_value_in c c' ap i v : both c c' -> compact_value_in rel o c ap i v = compact_value_in rel o c' ap i v.
Proof.
  intros H. unfold compact_value_in, remove_index. rewrite (ic_def _ _ _ H), (ic_container_ap _ _ _ H), (ix_lang _ _ _ (proj1 H)), (ix_dir _ _ _ (proj1 H)).
  assert (F : forall b m, (do m <- (if negb b then match i with Some i => put rel o c KIndex (JStr i) m | None => Ok m end else Ok m) ; Ok (JObj m))
            = (do m <- (if negb b then match i with Some i => put rel o c' KIndex (JStr i) m | None => Ok m end else Ok m) ; Ok (JObj m))).
  { intros b m. destruct i; [rewrite (ic_put _ _ _ _ _ H)|]; reflexivity. }
  destruct v as [l t|s|j].
  - destruct (_ && _)%bool.
    + destruct l; try reflexivity. destruct (_ || _)%bool; [reflexivity|]. rewrite (ic_put _ _ _ _ _ H). apply bind_same. intros m. apply F.
    + rewrite (ic_put _ _ _ _ _ H). apply bind_same. intros m. destruct t; [rewrite (ic_key _ _ _ H), (ic_iri _ _ _ _ H)|]; apply bind_same; intros; apply F.
  - destruct (_ && _)%bool; [reflexivity|]. rewrite (ic_put _ _ _ _ _ H). apply bind_same. intros m.
    destruct (ls_language s); [rewrite (ic_put _ _ _ _ _ H)|]; apply bind_same; intros m1; (destruct (ls_direction s); [rewrite (ic_put _ _ _ _ _ H)|]; apply bind_same; intros; apply F).
  - destruct (_ && _)%bool; [reflexivity|]. rewrite (ic_put _ _ _ _ _ H), (ic_key _ _ _ H), (ic_iri _ _ _ _ H). do 3 (apply bind_same; intros ?). apply F.
Qed.
Lemma ic_compact_value c c' ap i v : both c c' -> compact_value io ld rel pf o c ap i v = compact_value io ld rel pf o c' ap i v.
Proof. intros H. unfold compact_value. eapply outcomes_bind_eq; [apply ic_scoped; exact H|]. intros. apply ic_value_in. assumption. Qed.

Section Rec.
Variable rec : option string -> obj -> actx -> actx -> option string -> result json kerr.
Hypothesis HR : forall i x c c' t t' ap, both c c' -> both t t' -> rec i x c t ap = rec i x c' t' ap.

Lemma ic_collection l c c' t t' ap : both c c' -> both t t' -> compact_collection o rec l c t ap = compact_collection o rec l c' t' ap.
Proof.
  intros H T. unfold compact_collection. rewrite (ic_container_ap _ _ _ H). erewrite flat_ext; [reflexivity|]. intros x. cbn beta. rewrite (HR _ _ _ _ _ _ _ H T). reflexivity.
Qed.
Lemma ic_property_list l i m cn b key c c' : both c c' -> compact_property_list rel o rec l i m cn b key c = compact_property_list rel o rec l i m cn b key c'.
Proof.
  intros H. unfold compact_property_list. rewrite (ic_collection _ _ _ _ _ _ H H). apply bind_same. intros j. destruct (negb _); [|reflexivity].
  rewrite (ic_put _ _ _ _ _ H). apply bind_same. intros x. destruct i; [rewrite (ic_put _ _ _ _ _ H)|]; reflexivity.
Qed.
Lemma in_map_ext m k f g : (forall x, f x = g x) -> in_map m k f = in_map m k g.
Proof. intros H. unfold in_map. apply bind_same. intros v. destruct v as [[]|]; rewrite ?H; reflexivity. Qed.
Lemma ic_property_graph n g i m cn b key c c' : both c c' -> compact_property_graph rel o rec n g i m cn b key c = compact_property_graph rel o rec n g i m cn b key c'.
Proof.
  intros H. unfold compact_property_graph. rewrite (ic_collection _ _ _ _ _ _ H H). apply bind_same. intros j.
  destruct (_ && c_contains cn CKId)%bool.
  { apply in_map_ext. intros x. destruct (n_id n); rewrite (ic_iri _ _ _ _ H); reflexivity. }
  destruct (_ && is_simple n)%bool; [reflexivity|]. destruct (_ && is_simple n)%bool.
  { rewrite (ic_put _ _ _ _ _ H). reflexivity. }
  rewrite (ic_put _ _ _ _ _ H). apply bind_same. intros x. destruct (n_id n); [rewrite !(ic_iri _ _ _ _ H)|]; apply bind_same; intros y;
    (destruct i; [rewrite (ic_put _ _ _ _ _ H)|]; reflexivity).
Qed.
Lemma ic_nest m c c' key f g : both c c' -> (forall x, f x = g x) -> with_nest m c key f = with_nest m c' key g.
Proof.
  intros H F. unfold with_nest. rewrite (ic_def _ _ _ H). destruct (prop_def c' (Some key)) as [d|]; [|apply F]. destruct (nd_nest d) as [n|]; [|apply F].
  destruct n as [|t]; [apply in_map_ext, F|]. rewrite (ic_value _ _ _ H). rewrite (in_map_ext _ _ _ _ F). reflexivity.
Qed.
Lemma ic_map_entry cn key x j c c' : both c c' -> map_entry rel o rec cn key x j c = map_entry rel o rec cn key x j c'.
Proof.
  intros H. unfold map_entry. rewrite (ic_def _ _ _ H), (ic_key _ _ KNone H), (ic_key _ _ KLanguage H), (ic_key _ _ KId H), (ic_key _ _ KType H).
  assert (G : forall ck, (do (r, j) <- take_first ck j ; let '(k, l) := r in do j <- put_back ck l j ;
              do j <- match j with JObj [("@id", _)] => match o_id (snd x) with Some i => rec None (ONode (node_new (Some i))) c c (Some key) | None => Err KePanic end | _ => Ok j end ; Ok (k, j))
            = (do (r, j) <- take_first ck j ; let '(k, l) := r in do j <- put_back ck l j ;
              do j <- match j with JObj [("@id", _)] => match o_id (snd x) with Some i => rec None (ONode (node_new (Some i))) c' c' (Some key) | None => Err KePanic end | _ => Ok j end ; Ok (k, j))).
  { intros ck. apply bind_same. intros [[k l] j1]. apply bind_same. intros j2. destruct (o_id (snd x)); [rewrite (HR _ _ _ _ _ _ _ H H)|]; reflexivity. }
  match goal with |- bind ?a _ = bind ?b _ => assert (K : a = b); [|rewrite K; reflexivity] end.
  destruct (_ && _)%bool; [reflexivity|]. destruct (c_contains cn CKLanguage); [apply bind_same; intros ck; apply G|].
  destruct (c_contains cn CKIndex).
  { destruct (match prop_def c' (Some key) with Some d => nd_index d | None => None end); [rewrite (ic_iri _ _ _ _ H)|]; reflexivity. }
  destruct (c_contains cn CKId); [reflexivity|]. apply bind_same. intros ck. apply G.
Qed.
Lemma ic_plain x m cn b key c c' : both c c' -> compact_plain rel o rec x m cn b key c = compact_plain rel o rec x m cn b key c'.
Proof.
  intros H. unfold compact_plain. rewrite (HR _ _ _ _ _ _ _ H H). apply bind_same. intros j. destruct (_ && _)%bool; [|reflexivity].
  apply in_map_ext. intros y. rewrite (ic_map_entry _ _ _ _ _ _ H). reflexivity.
Qed.
Lemma ic_item t c c' r m x : both c c' -> compact_item rel o rec t c r m x = compact_item rel o rec t c' r m x.
Proof.
  intros H. unfold compact_item. rewrite (ic_iri_with _ _ _ _ _ H). apply bind_same. intros [key|]; [|reflexivity]. apply ic_nest; [exact H|]. clear m. intros m.
  unfold as_array_for. rewrite (ic_container _ _ _ H). destruct (snd x) as [v|n|l]; [apply ic_plain, H| |apply ic_property_list, H].
  destruct (if is_graph n then n_graph n else None); [apply ic_property_graph, H|apply ic_plain, H].
Qed.
Lemma ic_property t l c c' r m : both c c' -> compact_property rel o rec t l c r m = compact_property rel o rec t l c' r m.
Proof.
  intros H. unfold compact_property. destruct l as [|y l].
  - rewrite (ic_iri_with _ _ _ _ _ H). apply bind_same. intros [key|]; [|reflexivity]. apply ic_nest; [exact H|reflexivity].
  - apply fold_ext. intros. apply ic_item, H.
Qed.
Lemma ic_types_context t t' n c c' : both t t' -> both c c' -> outcomes both (compact_types_context io ld rel pf o t n c) (compact_types_context io ld rel pf o t' n c').
Proof.
  intros T H. unfold compact_types_context. rewrite (map_ext_r _ (fun x => kunwrap (kiri rel o t' (TmId x) true))) by (intros; rewrite (ic_iri _ _ _ _ T); reflexivity).
  apply outcomes_same. intros ts. apply fold_outcomes; [|exact H]. intros a b x K. apply ic_process; assumption.
Qed.
Lemma ic_types t t' c c' ts m : both t t' -> both c c' -> compact_types rel o t c ts m = compact_types rel o t' c' ts m.
Proof.
  intros T H. unfold compact_types. destruct (opt_list ts) as [|x l]; [reflexivity|].
  rewrite (ic_iri _ _ _ _ T), (map_ext_r _ (fun t => do s <- kiri rel o t' (TmId t) true ; Ok (opt_string s))) by (intros; rewrite (ic_iri _ _ _ _ T); reflexivity).
  apply bind_same. intros v. rewrite (ic_key _ _ _ H). apply bind_same. intros alias. rewrite (ic_container _ _ _ H). reflexivity.
Qed.
Definition bothm (a b : actx * jobject) : Prop := both (fst a) (fst b) /\ snd a = snd b.
Lemma ic_node_body n i c c' t t' ap m : both c c' -> both t t' -> compact_node_body io ld rel pf o rec n i c t ap m = compact_node_body io ld rel pf o rec n i c' t' ap m.
Proof.
  intros H T. unfold compact_node_body. rewrite (ic_types _ _ _ _ _ _ T H). apply bind_same. intros m1.
  apply (outcomes_bind_eq bothm).
  - destruct (opt_list (n_reverse n)) as [|x l]; [constructor; split; [exact H|reflexivity]|].
    eapply outcomes_bind; [apply ic_scoped; exact H|]. intros a b K.
    rewrite (fold_ext _ (fun r e => compact_property rel o rec (TmId (fst e)) (map (fun x : inode => (fst x, ONode (snd x))) (snd e)) b true r)) by (intros; apply ic_property, K).
    apply outcomes_same. intros r.
    rewrite (fold_ext _ (reverse_step o b)) by (intros [] []; unfold reverse_step; rewrite (ic_def _ _ _ K), (ic_container _ _ _ K); reflexivity).
    apply outcomes_same. intros [m2 r2]. rewrite (ic_put _ _ _ _ _ K). apply outcomes_same. intros m3. constructor. split; [exact K|reflexivity].
  - intros [a m2] [b m2'] [K E]. cbn [fst snd] in *. subst m2'.
    match goal with |- bind ?a _ = bind ?b _ => assert (X : a = b); [|rewrite X; clear X] end.
    { destruct i; [rewrite (ic_container_ap _ _ _ K), (ic_put _ _ _ _ _ K)|]; reflexivity. }
    apply bind_same. intros m3.
    match goal with |- bind ?a _ = bind ?b _ => assert (X : a = b); [|rewrite X; clear X] end.
    { destruct (n_graph n); [apply ic_property, K|reflexivity]. }
    apply bind_same. intros m4.
    rewrite (fold_ext _ (fun m e => compact_property rel o rec (TmId (fst e)) (snd e) b false m)) by (intros; apply ic_property, K).
    apply bind_same. intros m5. destruct (n_included n); [rewrite (ic_property _ _ _ _ _ _ K)|]; reflexivity.
Qed.
Lemma ic_node_in n i c c' t t' ap : both c c' -> both t t' -> compact_node_in io ld rel pf o rec n i c t ap = compact_node_in io ld rel pf o rec n i c' t' ap.
Proof.
  intros H T. unfold compact_node_in. destruct (n_id n) as [x|]; [|apply ic_node_body; assumption]. rewrite (ic_def _ _ _ H), !(ic_iri _ _ _ _ H).
  destruct (if n_empty n then mapped_type (prop_def c' ap) else None) as [[]|]; try reflexivity.
  all: apply bind_same; intros ?; apply bind_same; intros ?; apply ic_node_body; assumption.
Qed.
Lemma ic_node n i c c' t t' ap : both c c' -> both t t' -> compact_node io ld rel pf o rec n i c t ap = compact_node io ld rel pf o rec n i c' t' ap.
Proof.
  intros H T. unfold compact_node. eapply (outcomes_bind_eq both).
  - apply ic_scoped; [exact T|]. destruct (_ && _)%bool; [exact H|apply ic_prev, H].
  - intros a b K. eapply (outcomes_bind_eq both); [apply ic_types_context; assumption|]. intros. apply ic_node_in; assumption.
Qed.
Lemma ic_list l i c c' t t' ap : both c c' -> both t t' -> compact_list io ld rel pf o rec l i c t ap = compact_list io ld rel pf o rec l i c' t' ap.
Proof.
  intros H T. unfold compact_list. rewrite (ic_container_ap _ _ _ T). eapply (outcomes_bind_eq both); [apply ic_scoped; [exact T|apply ic_prev, H]|].
  intros a b K. destruct (c_contains _ CKList); [apply ic_collection; exact K|]. rewrite (ic_property _ _ _ _ _ _ K). apply bind_same. intros m.
  destruct i; [rewrite (ic_container_ap _ _ _ K), (ic_put _ _ _ _ _ K)|]; reflexivity.
Qed.
End Rec.

Lemma ic_object n : forall i x c c' t t' ap, both c c' -> both t t' -> compact_object io ld rel pf o n i x c t ap = compact_object io ld rel pf o n i x c' t' ap.
Proof.
  induction n as [|n IH]; intros i x c c' t t' ap H T; cbn [compact_object]; [reflexivity|]. destruct x as [v|y|l].
  - apply ic_compact_value, H.
  - apply ic_node; assumption.
  - apply ic_list; assumption.
Qed.
Lemma compact_both n c c' j doc : both c c' -> compact io ld rel pf o n c j doc = compact io ld rel pf o n c' j doc.
Proof.
  intros H. unfold compact. rewrite (ic_collection _ (ic_object n) _ _ _ _ _ _ H H). apply bind_same. intros v. unfold embed_context. rewrite (ic_key _ _ _ H). reflexivity.
Qed.
End Compaction.
Theorem compact_alike io ld rel pf o n c c' j doc : answers_alike c c' -> (forall c1, used io ld pf c c1 -> settled c1) ->
  compact io ld rel pf o n c j doc = compact io ld rel pf o n c' j doc.
Proof. intros H S. apply (compact_both io ld rel pf o c S). split; [exact H|constructor]. Qed.

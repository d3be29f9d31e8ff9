(** Flattened documents are well formed, and can be written as JSON and read back if the document
    can. *)
From Coq Require Import Permutation.
From Verif Require Import Prelude Json Enums LangTag LangString Str Keyword Container ContextSyntax Ctx Object ObjectEq ObjectJson Traverse Relabel RelabelProofs PropRelabel
  Process CompactIri CompactIriRead Sound Expand ExpandOk Flatten FlattenProofs FlattenSpec FlattenEffect FlattenOutput PropFlatten.

(** ** What can be written, included nodes included *)
Section Writable.
  Variable io : iops.
  Definition writable_key (p : id) : Prop := readable io p /\ ~ In (id_str p) reserved.
  Inductive writable : obj -> Prop :=
  | WrVal v : pr_value io v -> writable (OVal v)
  | WrNode n : writable_node n -> writable (ONode n)
  | WrList l : Forall (fun x => writable (snd x)) l -> writable (OList l)
  with writable_node : node -> Prop :=
  | WrMk i ts g inc ps rs :
      (forall x, i = Some x -> readable io x) -> ts <> Some [] -> Forall (readable io) (opt_list ts) ->
      Forall (fun x => writable (snd x)) (opt_list g) -> Forall (fun x => writable_node (snd x)) (opt_list inc) ->
      Forall (fun p => writable_key (fst p) /\ Forall (fun x => writable (snd x)) (snd p)) ps ->
      Forall (fun p => writable_key (fst p) /\ Forall (fun x => writable_node (snd x)) (snd p)) (opt_list rs) ->
      writable_node (MkNode i ts g inc ps rs).

  Lemma writable_occurs : (forall o a x b z m, writable o -> occurs a x o b z m -> writable_node m) /\
    (forall n a x b z m, writable_node n -> occurs_node a x n b z m -> writable_node m).
  Proof.
    apply (obj_node_ind (fun o => forall a x b z m, writable o -> occurs a x o b z m -> writable_node m) (fun n => forall a x b z m, writable_node n -> occurs_node a x n b z m -> writable_node m)).
    - intros v a x b z m _ O. inversion O.
    - intros n IH a x b z m W O. inversion W; inversion O; subst. eapply IH; eassumption.
    - intros l IH a x b z m W O. inversion W as [| |? F]; inversion O as [|? ? ? y ? ? ? I O2]; subst. eapply (Forall_in _ _ _ IH I); [exact (Forall_in _ _ _ F I)|exact O2].
    - intros i ts g inc ps rs Hg Hi Hp Hr a x b z m W O. inversion W as [? ? ? ? ? ? W1 W2 W3 W4 W5 W6 W7]; subst.
      inversion O as [|? ? ? j y ? ? ? E J O2|? ? ? y ? ? ? J O2|? ? ? p y ? ? ? K J O2|? ? ? p y ? ? ? K J O2]; subst; [exact W|..].
      + eapply (Forall_in _ _ _ Hg J); [exact (Forall_in _ _ _ W4 J)|exact O2].
      + eapply (Forall_in _ _ _ Hi J); [exact (Forall_in _ _ _ W5 J)|exact O2].
      + eapply (Forall_in _ _ _ (Forall_in _ _ _ Hp K) J); [exact (Forall_in _ _ _ (proj2 (Forall_in _ _ _ W6 K)) J)|exact O2].
      + eapply (Forall_in _ _ _ (Forall_in _ _ _ Hr K) J); [exact (Forall_in _ _ _ (proj2 (Forall_in _ _ _ W7 K)) J)|exact O2].
  Qed.

  (** Renaming with identifiers that can be read. *)
  Lemma each_given {X Y} (R : X -> Y -> list id -> Prop) l l' A y : each R l l' A -> In y l' -> exists x B, In x l /\ R x y B /\ incl B A.
  Proof.
    induction 1 as [|x y' l l' A B R' E IH]; [intros []|]. intros [<-|I]; [exists x, A; split; [left; reflexivity|split; [exact R'|apply incl_appl, incl_refl]]|].
    destruct (IH I) as (x' & B' & I' & R'' & J). exists x', B'. split; [right; exact I'|split; [exact R''|apply incl_appr, J]].
  Qed.
  Lemma each_opt_given {X Y} (R : X -> Y -> list id -> Prop) o o' A y : each_opt R o o' A -> In y (opt_list o') -> exists x B, In x (opt_list o) /\ R x y B /\ incl B A.
  Proof. intros [|l l' A' E]; [intros []|]. apply (each_given _ _ _ _ _ E). Qed.
  Variable f : string -> id.
  Lemma ren_readable i : readable io i -> (forall b, i = IBlank b -> readable io (f b)) -> readable io (ren_id f i).
  Proof. intros R H. destruct i; [exact R|apply H; reflexivity|exact R]. Qed.
  Lemma ren_writable : (forall o' o A, writable o -> ren f o o' A -> Forall (readable io) A -> (forall b, named o (IBlank b) -> readable io (f b)) -> writable o') /\
    (forall n' n A, writable_node n -> ren_node f n n' A -> Forall (readable io) A -> (forall b, named_node n (IBlank b) -> readable io (f b)) -> writable_node n').
  Proof.
    apply (obj_node_ind (fun o' => forall o A, writable o -> ren f o o' A -> Forall (readable io) A -> (forall b, named o (IBlank b) -> readable io (f b)) -> writable o')
      (fun n' => forall n A, writable_node n -> ren_node f n n' A -> Forall (readable io) A -> (forall b, named_node n (IBlank b) -> readable io (f b)) -> writable_node n')).
    - intros v o A W R _ _. inversion R; subst. exact W.
    - intros n IH o A W R FA FB. inversion R; subst. inversion W; subst. constructor. eapply IH; try eassumption. intros b N. apply FB. constructor. exact N.
    - intros l IH o A W R FA FB. inversion R as [| |l0 ? ? E]; subst. inversion W as [| |? F]; subst. constructor. apply Forall_forall. intros y I.
      destruct (each_given _ _ _ _ _ E I) as (x & B & J & [_ R'] & S). eapply (Forall_in _ _ _ IH I); [exact (Forall_in _ _ _ F J)|exact R'|exact (incl_Forall S FA)|].
      intros b N. apply FB. econstructor; eassumption.
    - intros i' ts' g' inc' ps' rs' Hg Hi Hp Hr n A W R FA FB.
      inversion R as [i ? ts g ? inc ? ps ? rs ? Ai Ag An Ap Ar Ri Rg Rn Rp Rr]; subst. inversion W as [? ? ? ? ? ? W1 W2 W3 W4 W5 W6 W7]; subst.
      rewrite !Forall_app in FA. destruct FA as (Fi & Fg & Fn & Fp & Fr). constructor.
      + intros x ->. inversion Ri as [j|j]; subst.
        * apply ren_readable; [apply W1; reflexivity|]. intros b ->. apply FB. apply NmId. reflexivity.
        * inversion Fi; assumption.
      + destruct ts as [[|t ts]|]; try discriminate. contradiction W2; reflexivity.
      + destruct ts as [ts|]; [|constructor]. cbn [option_map opt_list] in *. apply Forall_forall. intros y I. apply in_map_iff in I. destruct I as (t & <- & I).
        apply ren_readable; [exact (Forall_in _ _ _ W3 I)|]. intros b ->. apply FB. apply NmType. exact I.
      + apply Forall_forall. intros y I. destruct (each_opt_given _ _ _ _ _ Rg I) as (x & B & J & [_ R'] & S).
        eapply (Forall_in _ _ _ Hg I); [exact (Forall_in _ _ _ W4 J)|exact R'|exact (incl_Forall S Fg)|]. intros b N. apply FB. eapply NmGraph; [exact J|exact N].
      + apply Forall_forall. intros y I. destruct (each_opt_given _ _ _ _ _ Rn I) as (x & B & J & [_ R'] & S).
        eapply (Forall_in _ _ _ Hi I); [exact (Forall_in _ _ _ W5 J)|exact R'|exact (incl_Forall S Fn)|]. intros b N. apply FB. eapply NmIncluded; [exact J|exact N].
      + apply Forall_forall. intros q I. destruct (each_given _ _ _ _ _ Rp I) as (p & B & J & [E R'] & S). pose proof (Forall_in _ _ _ W6 J) as [K F]. split; [rewrite <- E; exact K|].
        apply Forall_forall. intros y I'. destruct (each_given _ _ _ _ _ R' I') as (x & B' & J' & [_ R''] & S').
        eapply (Forall_in _ _ _ (Forall_in _ _ _ Hp I) I'); [exact (Forall_in _ _ _ F J')|exact R''|exact (incl_Forall (incl_tran S' S) Fp)|]. intros b N. apply FB. eapply NmProp; [exact J|exact J'|exact N].
      + apply Forall_forall. intros q I. destruct (each_opt_given _ _ _ _ _ Rr I) as (p & B & J & [E R'] & S). pose proof (Forall_in _ _ _ W7 J) as [K F]. split; [rewrite <- E; exact K|].
        apply Forall_forall. intros y I'. destruct (each_given _ _ _ _ _ R' I') as (x & B' & J' & [_ R''] & S').
        eapply (Forall_in _ _ _ (Forall_in _ _ _ Hr I) I'); [exact (Forall_in _ _ _ F J')|exact R''|exact (incl_Forall (incl_tran S' S) Fr)|]. intros b N. apply FB. eapply NmReverse; [exact J|exact J'|exact N].
  Qed.
End Writable.

(** ** The keys of the properties of stored nodes *)
Section Keys.
  Variables (fin rnd : list word -> N).
  Lemma iau_keys k v l q : In q (map fst (insert_all_unique fin rnd k v l)) -> In q (map fst l) \/ q = k.
  Proof.
    induction l as [|[k' w] l IH]; cbn; [intros [<-|[]]; auto|]. destruct (id_eqb_spec k k') as [->|N]; cbn; intros [I|I]; auto. apply IH in I. destruct I; auto.
  Qed.
  Lemma iau_nodup k v l : NoDup (map fst l) -> NoDup (map fst (insert_all_unique fin rnd k v l)).
  Proof.
    induction l as [|[k' w] l IH]; cbn; intros D; [repeat constructor; intros []|]. inversion D as [|? ? N D']; subst. destruct (id_eqb_spec k k') as [->|M]; cbn; [exact D|].
    constructor; [|apply IH, D']. intros I. apply iau_keys in I. destruct I as [I|I]; [exact (N I)|congruence].
  Qed.
  Lemma F_nodup a i l z n : fold_left (ap fin rnd a i) l None = Some (z, n) -> NoDup (map fst (n_props n)).
  Proof.
    revert l z n. apply (F_ind fin rnd a i (fun l n => NoDup (map fst (n_props n)))).
    - intros _ _. constructor.
    - auto.
    - intros _ ts n H. destruct n. exact H.
    - intros _ v n H. destruct n. exact H.
    - intros _ p v n H. destruct n. apply iau_nodup, H.
  Qed.
  Lemma F_keys a i l z n p : fold_left (ap fin rnd a i) l None = Some (z, n) -> In p (map fst (n_props n)) -> exists ws, In (OProps a i p ws) l.
  Proof.
    intros E. revert p. revert l z n E. apply (F_ind fin rnd a i (fun l n => forall p, In p (map fst (n_props n)) -> exists ws, In (OProps a i p ws) l)).
    - intros l x p [].
    - intros l q n H p I. destruct (H p I) as (ws & J). exists ws. apply in_or_app. auto.
    - intros l ts n H p I. destruct n. destruct (H p I) as (ws & J). exists ws. apply in_or_app. auto.
    - intros l v n H p I. destruct n. destruct (H p I) as (ws & J). exists ws. apply in_or_app. auto.
    - intros l q v n H p I. destruct n. cbn in I. apply iau_keys in I. destruct I as [I| ->]; [destruct (H p I) as (ws & J); exists ws; apply in_or_app; auto|].
      exists v. apply in_or_app. right. left. reflexivity.
  Qed.
End Keys.

(** ** Flattened documents *)
Lemma flat_wf : forall o x, flat_value (x, o) -> wf o.
Proof.
  refine (proj1 (obj_node_ind (fun o => forall x, flat_value (x, o) -> wf o) (fun _ => True) _ _ _ _)); auto.
  - intros v x _. constructor.
  - intros n _ x F. inversion F; subst. repeat constructor.
  - intros l IH x F. inversion F as [| |? ? F']; subst. constructor. apply Forall_forall. intros [z o] I. exact (Forall_in _ _ _ IH I z (Forall_in _ _ _ F' I)).
Qed.
Lemma distinct_oid (q : list iobj) : (forall y, In y q -> exists n, snd y = ONode n) -> NoDup (map oid q) -> distinct same_i q.
Proof.
  intros H N. apply distinct_ids in N. unfold distinct in *. induction N as [|y q F N IH]; constructor.
  - rewrite Forall_forall in *. intros z I [_ S]. apply (F z I). destruct (H y (or_introl eq_refl)) as (n & Y), (H z (or_intror I)) as (n' & Z). unfold oid. rewrite Y, Z in *.
    inversion S as [|? ? Sn|]; subst. inversion Sn; subst. reflexivity.
  - apply IH. intros z I. apply H. right. exact I.
Qed.

Section FlatWf.
  Variables (fin rnd : list word -> N) (pg : list (id * graph) -> list (id * graph)) (pn : option id -> graph -> graph) (po : list inode -> list inode).
  Hypothesis (Hg : any_order pg) (Hn : forall a, any_order (pn a)) (Ho : any_order po).
  Variables (gen : nat -> id) (d : list iobj) (out : list inode).
  Hypothesis (E : flatten fin rnd pg pn po gen d = Ok out).
  Let T := fst (relabel_l gen (assign_id gen) ide ide env0 d).
  Lemma stored_nodup m a k x : do_ops fin rnd nmap0 (tr_doc T) = Ok m -> stored m a k x -> NoDup (map fst (n_props (snd x))).
  Proof. intros Em S. unfold stored in S. rewrite (map_at fin rnd _ m Em) in S. destruct x as [z n]. exact (F_nodup _ _ _ _ _ _ _ S). Qed.
  Lemma stored_keys m a k x p : do_ops fin rnd nmap0 (tr_doc T) = Ok m -> stored m a k x -> In p (map fst (n_props (snd x))) -> exists ws, In (OProps a k p ws) (tr_doc T).
  Proof. intros Em S. unfold stored in S. rewrite (map_at fin rnd _ m Em) in S. destruct x as [z n]. exact (F_keys _ _ _ _ _ _ _ _ S). Qed.
  Lemma final_nodup m k x : do_ops fin rnd nmap0 (tr_doc T) = Ok m -> final fin rnd pn m k = Some x -> NoDup (map fst (n_props (snd x))).
  Proof.
    intros Em X. destruct (at_node m None k) as [y|] eqn:S.
    - destruct (final_of fin rnd pn m k y S) as (x' & X' & _ & P & _). rewrite X in X'. injection X' as <-. rewrite P. exact (stored_nodup m None k y Em S).
    - destruct (n_props (snd x)) as [|[p vs] ps] eqn:Ep; [constructor|]. destruct (final_props fin rnd pn m k x p vs X) as (x' & S' & _); [rewrite Ep; left; reflexivity|].
      unfold stored in S'. congruence.
  Qed.
  Lemma flatten_wf : Forall (fun x => wf_node (snd x)) out /\ distinct same_i (as_doc out).
  Proof.
    pose proof (flatten_flat fin rnd pg pn po Hg Hn Ho gen d out E) as [N F]. destruct (flatten_ok fin rnd pg pn po gen d out E) as (m & Em & Eo). fold T in Em. pose proof (tr_doc_fine T) as Ft.
    destruct (flatten_map_spec fin rnd pg pn po Hg Hn Ho _ m Em) as (out' & E' & _ & M). rewrite Eo in E'. injection E' as <-.
    split.
    - apply Forall_forall. intros x I. destruct (F x I) as ((Hi & Ii & Ir & Fp) & Ng & Fg). apply M in I. destruct I as (k & X & _).
      pose proof (final_nodup m k x Em X) as D. pose proof (final_graph fin rnd pn Hn _ m Ft Em k x X) as G. destruct x as [z [i ts g inc ps rs]]. cbn [fst snd n_id n_types n_graph n_included n_props n_reverse] in *. subst inc rs.
      constructor; [|apply distinct_oid; [intros y I; destruct (Fg y I) as (n & En & _); eauto|exact Ng]|constructor|constructor|exact D| |constructor|constructor].
      + apply Forall_forall. intros y I. destruct g as [v|]; [|contradiction]. destruct G as (_ & _ & G). cbn [opt_list] in *. pose proof (proj1 (G y) I) as (j & x' & S & J).
        destruct (Fg y I) as (n & En & (_ & Ni & Nr & Np) & Gn). rewrite En. constructor.
        assert (Pn : n_props n = n_props (snd x')).
        { destruct x' as [w [i' ts' g' inc' ps' rs']]. cbn in J. destruct w, ps'; cbn in J; destruct J as [J|[]] || contradiction; subst y; injection En as <-; reflexivity. }
        pose proof (stored_nodup m (Some k) j x' Em S) as Dn. rewrite <- Pn in Dn. destruct n as [i1 ts1 g1 inc1 ps1 rs1]. cbn [n_id n_types n_graph n_included n_props n_reverse] in *. subst.
        constructor; try constructor; [exact Dn|]. apply Forall_forall. intros [p vs] I1. apply Forall_forall. intros [z1 o1] I2. exact (flat_wf o1 z1 (Np p vs _ I1 I2)).
      + apply Forall_forall. intros [p vs] I1. apply Forall_forall. intros [z1 o1] I2. exact (flat_wf o1 z1 (Fp p vs _ I1 I2)).
    - apply distinct_oid.
      + intros y I. apply in_map_iff in I. destruct I as (x & <- & _). cbn. eauto.
      + unfold as_doc. rewrite map_map. exact N.
  Qed.

  Variable io : iops.
  Hypothesis (Id : idd_doc T) (W : Forall (fun x => writable io (snd x)) T).
  Lemma occurs_writable b z n : occurs_in T b z n -> writable_node io n.
  Proof. intros (y & I & O). exact (proj1 (writable_occurs io) _ _ _ _ _ _ (Forall_in _ _ _ W I) O). Qed.
  Lemma id_readable b z n : occurs_in T b z n -> readable io (the_id n).
  Proof. intros O. destruct (idd_doc_identified _ Id b z n O) as (i & Ei). unfold the_id. rewrite Ei. apply occurs_writable in O. inversion O as [? ? ? ? ? ? W1]; subst. apply W1, Ei. Qed.
  Lemma reference_writable i : readable io i -> writable io (snd (reference i)).
  Proof. intros R. constructor. constructor; cbn; try constructor; [intros x [= <-]; exact R|discriminate]. Qed.
  Lemma ref_writable : forall o a x, (forall b z n, occurs a x o b z n -> exists i, n_id n = Some i) -> writable io o -> writable io (snd (ref_o x o)).
  Proof.
    refine (proj1 (obj_node_ind (fun o => forall a x, (forall b z n, occurs a x o b z n -> exists i, n_id n = Some i) -> writable io o -> writable io (snd (ref_o x o))) (fun _ => True) _ _ _ _)); auto.
    - intros n _ a x D Wn. cbn. apply reference_writable. destruct (D a x n) as (i & Ei); [constructor; constructor|]. unfold the_id. rewrite Ei. inversion Wn as [|? Wm|]; subst. inversion Wm; subst. auto.
    - intros l IH a x D Wl. inversion Wl as [| |? F]; subst. cbn. constructor. apply Forall_forall. intros y I. apply in_map_iff in I. destruct I as (y' & <- & I).
      apply (Forall_in _ _ _ IH I a); [|exact (Forall_in _ _ _ F I)]. intros b z n O. apply (D b z n). econstructor; eassumption.
  Qed.
  Lemma props_writable a i p ws : In (OProps a i p ws) (tr_doc T) -> writable_key io p /\ Forall (fun y => writable io (snd y)) ws.
  Proof.
    intros I. apply (tr_doc_in T _ Id) in I. destruct I as (b & z & n & O & I). pose proof (occurs_writable b z n O) as Wn. pose proof (id_readable b z n O) as Rn.
    unfold own_ops in I. rewrite !in_app_iff in I. destruct I as [I|[I|[I|[I|I]]]].
    - destruct I as [I|[]]. discriminate I.
    - destruct (n_types n); [destruct I as [I|[]]; discriminate I|contradiction].
    - destruct (n_graph n); [destruct I as [I|[I|[]]]; discriminate I|contradiction].
    - apply in_map_iff in I. destruct I as ([q vs] & X & I). injection X as <- <- <- <-. inversion Wn as [? ? ? ? ? ? W1 W2 W3 W4 W5 W6 W7]; subst. cbn [n_props fst snd] in *.
      destruct (Forall_in _ _ _ W6 I) as [K F]. split; [exact K|]. apply Forall_forall. intros y J. apply in_map_iff in J. destruct J as (y' & <- & J). apply (ref_writable (snd y') b); [|exact (Forall_in _ _ _ F J)].
      intros b' z' n' O'. apply (idd_doc_identified T Id b' z' n'). destruct O as (y0 & I0 & O). exists y0. split; [exact I0|]. eapply occurs_trans; [exact O|]. eapply OcProp; [exact I|exact J|exact O'].
    - apply in_flat_map in I. destruct I as ([q vs] & I & J). apply in_map_iff in J. destruct J as (y & X & J). injection X as <- <- <- <-. inversion Wn as [? ? ? ? ? ? W1 W2 W3 W4 W5 W6 W7]; subst. cbn [n_reverse fst snd] in *.
      destruct (Forall_in _ _ _ W7 I) as [K _]. split; [exact K|]. constructor; [|constructor]. apply reference_writable, Rn.
  Qed.
  Lemma types_writable a i ts : In (OTypes a i ts) (tr_doc T) -> ts <> [] /\ Forall (readable io) ts.
  Proof.
    intros I. apply (types_ops T _ _ _ Id) in I. destruct I as (z & n & O & _ & Et). apply occurs_writable in O. inversion O as [? ? ? ? ? ? W1 W2 W3]; subst. cbn in Et. subst. split; [congruence|exact W3].
  Qed.
  Lemma stored_writable m a k x : do_ops fin rnd nmap0 (tr_doc T) = Ok m -> stored m a k x ->
    readable io k /\ (forall ts, n_types (snd x) = Some ts -> ts <> [] /\ Forall (readable io) ts) /\
    forall p vs, In (p, vs) (n_props (snd x)) -> writable_key io p /\ Forall (fun y => writable io (snd y)) vs.
  Proof.
    intros Em S. pose proof S as S'. unfold stored in S. rewrite (map_at fin rnd _ m Em) in S. destruct x as [z n]. split; [|split].
    - destruct (proj1 (F_declared fin rnd a k (tr_doc T))) as (w & I); [congruence|]. apply (declare_ops T _ _ _ Id) in I. destruct I as (n' & O & Ek).
      pose proof (id_readable _ _ _ O) as R. unfold the_id in R. rewrite Ek in R. exact R.
    - intros ts Et. apply (types_writable a k). exact (F_types_sound _ _ _ _ _ _ _ _ S Et).
    - intros p vs I. cbn [snd] in I. split.
      + destruct (stored_keys m a k (z, n) p Em S') as (ws & J); [apply in_map_iff; exists (p, vs); auto|]. exact (proj1 (props_writable _ _ _ _ J)).
      + apply Forall_forall. intros y J. destruct (F_props_sound _ _ _ _ _ _ _ _ _ _ S I J) as (ws & K & L). exact (Forall_in _ _ _ (proj2 (props_writable _ _ _ _ K)) L).
  Qed.
  Lemma flat_printable : forall o x, flat_value (x, o) -> writable io o -> printable io o.
  Proof.
    refine (proj1 (obj_node_ind (fun o => forall x, flat_value (x, o) -> writable io o -> printable io o) (fun _ => True) _ _ _ _)); auto.
    - intros v x _ Wv. inversion Wv; subst. constructor. assumption.
    - intros n _ x F Wn. inversion F; subst. inversion Wn as [|? Wm|]; subst. inversion Wm as [? ? ? ? ? ? W1]; subst. constructor. constructor; try constructor; [exact W1|discriminate].
    - intros l IH x F Wl. inversion F as [| |? ? F']; subst. inversion Wl as [| |? G]; subst. constructor. apply Forall_forall. intros [z o] I.
      exact (Forall_in _ _ _ IH I z (Forall_in _ _ _ F' I) (Forall_in _ _ _ G I)).
  Qed.
  Lemma flat_node_printable n : flat_node n -> (forall x, n_id n = Some x -> readable io x) -> (forall ts, n_types n = Some ts -> ts <> [] /\ Forall (readable io) ts) ->
    (forall p vs, In (p, vs) (n_props n) -> writable_key io p /\ Forall (fun y => writable io (snd y)) vs) -> Forall (fun y => printable io (snd y)) (opt_list (n_graph n)) -> printable_node io n.
  Proof.
    intros (_ & Ni & Nr & Np) Ri Rt Rp Gg. destruct n as [i ts g inc ps rs]. cbn [n_id n_types n_graph n_included n_props n_reverse] in *. subst. constructor.
    - exact Ri.
    - intros ->. apply (Rt [] eq_refl). reflexivity.
    - destruct ts as [ts|]; [apply (Rt ts eq_refl)|constructor].
    - exact Gg.
    - apply Forall_forall. intros [p vs] I. destruct (Rp p vs I) as [[K1 K2] F]. split; [exact K1|]. split; [exact K2|]. apply Forall_forall. intros [z o] J.
      exact (flat_printable o z (Np p vs _ I J) (Forall_in _ _ _ F J)).
    - constructor.
  Qed.
  Lemma flatten_printable : Forall (fun x => printable_node io (snd x)) out.
  Proof.
    pose proof (flatten_flat fin rnd pg pn po Hg Hn Ho gen d out E) as [_ F]. destruct (flatten_ok fin rnd pg pn po gen d out E) as (m & Em & Eo). fold T in Em. pose proof (tr_doc_fine T) as Ft.
    destruct (flatten_map_spec fin rnd pg pn po Hg Hn Ho _ m Em) as (out' & E' & _ & M). rewrite Eo in E'. injection E' as <-.
    apply Forall_forall. intros x I. destruct (F x I) as (Fx & _ & Fg). apply M in I. destruct I as (k & X & _).
    pose proof (final_graph fin rnd pn Hn _ m Ft Em k x X) as G. destruct (final_shape fin rnd pn _ m Em k x X) as (Ik & _).
    assert (Rk : readable io k).
    { destruct (at_node m None k) as [y|] eqn:S; [exact (proj1 (stored_writable m None k y Em S))|].
      assert (J : In (OGraph k) (tr_doc T)).
      { apply (map_graph fin rnd _ m Em). intros Z. unfold final in X. rewrite Z, S in X. discriminate X. }
      apply (tr_doc_in T _ Id) in J. destruct J as (b & z & n & O & J). pose proof (id_readable b z n O) as R.
      unfold own_ops in J. rewrite !in_app_iff in J. destruct J as [J|[J|[J|[J|J]]]].
      - destruct J as [J|[]]. discriminate J.
      - destruct (n_types n); [destruct J as [J|[]]; discriminate J|contradiction].
      - destruct (n_graph n); [|contradiction]. destruct J as [J|[J|[]]]; [injection J as <-; exact R|discriminate J].
      - apply in_map_iff in J. destruct J as (? & J & _). discriminate J.
      - apply in_flat_map in J. destruct J as (? & _ & J). apply in_map_iff in J. destruct J as (? & J & _). discriminate J. }
    apply flat_node_printable; [exact Fx|intros i; rewrite Ik; intros [= <-]; exact Rk| | |].
    - intros ts Et. destruct (final_types fin rnd pn m k x ts X Et) as (x' & S & Et'). exact (proj1 (proj2 (stored_writable m None k x' Em S)) ts Et').
    - intros p vs I. destruct (final_props fin rnd pn m k x p vs X I) as (x' & S & I'). exact (proj2 (proj2 (stored_writable m None k x' Em S)) p vs I').
    - apply Forall_forall. intros y I. destruct (Fg y I) as (n & En & Fn & Gn). rewrite En. constructor. destruct (n_graph (snd x)) as [v|]; [|contradiction]. destruct G as (_ & _ & G).
      apply G in I. destruct I as (j & x' & S & J). destruct (stored_writable m (Some k) j x' Em S) as (Rj & Tj & Pj). destruct (stored_shape fin rnd _ m Em _ _ _ S) as (Ij & _).
      assert (Q : n_id n = n_id (snd x') /\ n_types n = n_types (snd x') /\ n_props n = n_props (snd x')).
      { destruct x' as [w [i' ts' g' inc' ps' rs']]. cbn in J. destruct w, ps'; cbn in J; destruct J as [J|[]] || contradiction; subst y; injection En as <-; auto. }
      destruct Q as (Q1 & Q2 & Q3). apply flat_node_printable; [exact Fn|rewrite Q1, Ij; intros i [= <-]; exact Rj|rewrite Q2; exact Tj|rewrite Q3; exact Pj|rewrite Gn; constructor].
  Qed.
End FlatWf.

(** ** From expansion *)
Lemma good_writable io (K : id -> Prop) : id_laws io ->
  (forall x, ExpandOk.good io K x -> (forall m p l, inside true x (ONode m) -> In (p, l) (n_props m) -> ~ In (id_str p) reserved) -> writable io x) /\
  (forall n, ExpandOk.good_node io K n -> (forall m p l, inside true (ONode n) (ONode m) -> In (p, l) (n_props m) -> ~ In (id_str p) reserved) -> writable_node io n).
Proof.
  intros L. apply (obj_node_ind
    (fun x => ExpandOk.good io K x -> (forall m p l, inside true x (ONode m) -> In (p, l) (n_props m) -> ~ In (id_str p) reserved) -> writable io x)
    (fun n => ExpandOk.good_node io K n -> (forall m p l, inside true (ONode n) (ONode m) -> In (p, l) (n_props m) -> ~ In (id_str p) reserved) -> writable_node io n)).
  - intros v G _. inversion G as [? [l t _ T|s T|j]| |]; subst; constructor; constructor; try assumption.
    intros t' E. split; [exact (T _ E)|]. intros ->. pose proof (iri_colon io L _ (T _ E)) as X. discriminate X.
  - intros n IH G N. inversion G; subst. constructor. auto.
  - intros l IH G N. inversion G as [| |? Gl]; subst. constructor. apply Forall_forall. intros y I. apply (Forall_in _ _ _ IH I (Forall_in _ _ _ Gl I)).
    intros m p vs H. apply N. eapply InList; [reflexivity|exact I|exact H].
  - intros i ts g inc ps rs Hg Hi Hp Hr G N. inversion G as [? ? ? ? ? ? G1 G2 G3 G4 G5 G6 G7]; subst. constructor; try assumption.
    + apply Forall_forall. intros y I. apply (Forall_in _ _ _ Hg I (Forall_in _ _ _ G4 I)). intros m p vs H. apply N. constructor. eapply InGraph; [exact I|exact H].
    + apply Forall_forall. intros y I. apply (Forall_in _ _ _ Hi I (Forall_in _ _ _ G5 I)). intros m p vs H. apply N. constructor. eapply InIncluded; [exact I|exact H].
    + apply Forall_forall. intros q I. destruct (Forall_in _ _ _ G6 I) as (A & _ & B). split; [split; [exact A|]|].
      * destruct q as [q vs]. apply (N (MkNode i ts g inc ps rs) q vs); [apply InSelf|exact I].
      * apply Forall_forall. intros y J. apply (Forall_in _ _ _ (Forall_in _ _ _ Hp I) J (Forall_in _ _ _ B J)). intros m p vs H. apply N. constructor. eapply InProp; [exact I|exact J|exact H].
    + apply Forall_forall. intros q I. destruct (Forall_in _ _ _ G7 I) as (A & C & B). split; [split; [exact A|apply colon_not_reserved, C]|].
      apply Forall_forall. intros y J. apply (Forall_in _ _ _ (Forall_in _ _ _ Hr I) J (Forall_in _ _ _ B J)). intros m p vs H. apply N. constructor. eapply InReverse; [exact I|exact J|exact H].
Qed.

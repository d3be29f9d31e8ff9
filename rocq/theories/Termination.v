(** Termination of context processing. *)
From Verif Require Import Prelude Str Keyword Enums LangTag Container Stack ContextSyntax Ctx Process ProcessRel NoErr.

(** ** What the processing of a context definition needs *)

(** [scoped lc d]: [lc] is the scoped context of a term of the definition [d]. *)
Definition scoped (lc : lcontext) (d : cdef tdef) : Prop :=
  exists k e, In (k, NSome (TExpanded e)) (cd_bindings d) /\ te_context e = Some lc.

(** [needs io ld lc' lc]: [lc'] is the scoped context of a term defined by [lc], or by a
    definition [lc] imports. *)
Definition needs (io : iops) (ld : loader) (lc' lc : lcontext) : Prop :=
  exists d, In (CEDef d) (entries_of lc) /\
    (scoped lc' d \/
     exists x b u i, cd_import d = Some x /\ resolve_iri io x b = Some u /\
       ld u = LdContext (LOne (CEDef i)) /\ scoped lc' i).

(** [occurs d lc]: the definition [d] occurs in [lc], at any depth of scoped contexts. *)
Inductive occurs (d : cdef tdef) : lcontext -> Prop :=
| occ_here lc : In (CEDef d) (entries_of lc) -> occurs d lc
| occ_scoped lc lc' d' : In (CEDef d') (entries_of lc) -> scoped lc' d' -> occurs d lc' -> occurs d lc.

Definition import_free (lc : lcontext) : Prop := forall d, occurs d lc -> cd_import d = None.

Lemma import_free_scoped lc lc' d : import_free lc -> In (CEDef d) (entries_of lc) -> scoped lc' d -> import_free lc'.
Proof. intros H H1 H2 d' H3. apply H. econstructor 2; eassumption. Qed.

(** Without [@import], [needs] is well-founded. *)
Lemma import_free_acc io ld lc : import_free lc -> Acc (needs io ld) lc.
Proof.
  pose (Pd := fun d : cdef tdef => forall lc', scoped lc' d -> import_free lc' -> Acc (needs io ld) lc').
  pose (Pe := fun e => forall d, e = CEDef d -> Pd d).
  pose (Pt := fun t => forall e lc', t = TExpanded e -> te_context e = Some lc' -> import_free lc' -> Acc (needs io ld) lc').
  apply (lcontext_ind' (fun lc => import_free lc -> Acc (needs io ld) lc) Pe Pt).
  - intros e IH HI. constructor. intros lc' (d & Hd & HN). cbn in Hd. destruct Hd as [->|[]].
    destruct HN as [HS|(x & b & u & i & Hx & _)].
    + apply (IH d eq_refl lc' HS). eapply import_free_scoped; [exact HI|left; reflexivity|exact HS].
    + exfalso. assert (cd_import d = None) as E by (apply HI; constructor; left; reflexivity). congruence.
  - intros l IH HI. constructor. intros lc' (d & Hd & HN). cbn in Hd.
    rewrite Forall_forall in IH. specialize (IH _ Hd).
    destruct HN as [HS|(x & b & u & i & Hx & _)].
    + apply (IH d eq_refl lc' HS). eapply import_free_scoped; [exact HI|exact Hd|exact HS].
    + exfalso. assert (cd_import d = None) as E by (apply HI; constructor; exact Hd). congruence.
  - intros d H. discriminate.
  - intros s d H. discriminate.
  - intros d IH d' H. injection H as <-. intros lc' (k & e & Hin & Hc) HI.
    rewrite Forall_forall in IH. specialize (IH _ Hin). cbn in IH. eapply IH; eauto.
  - intros s e lc' H. discriminate.
  - intros e IH e' lc' H Hc HI. injection H as <-. rewrite Hc in IH. cbn in IH. auto.
Qed.

(** ** Fuel *)

(** Fuel that is enough for every element of a finite list. *)
Lemma uniform {A} (l : list A) (Q : A -> nat -> Prop) :
  (forall x, In x l -> exists N, forall n, N <= n -> Q x n) ->
  exists N, forall n, N <= n -> forall x, In x l -> Q x n.
Proof.
  induction l as [|x l IH]; intros H.
  - exists 0. intros n _ x [].
  - destruct IH as [N HN]; [intros; apply H; right; assumption|].
    destruct (H x (or_introl eq_refl)) as [M HM].
    exists (max N M). intros n Hn y [<-|Hy]; [apply HM; lia|apply HN; [lia|exact Hy]].
Qed.

Section Fuel.
Variable io : iops.
Variable ld : loader.
Variable U : list string.
Hypothesis HU : forall u lc, ld u = LdContext lc -> In u U.

(** The base URLs in play. *)
Variable B : list (option string).
Hypothesis HB0 : In None B.
Hypothesis HBU : forall u, In u U -> In (Some u) B.

Definition left_over (rs : pstack) : nat := length (filter (fun u => negb (ps_cycle rs u)) U).

Lemma filter_le {A} (f g : A -> bool) l : (forall x, g x = true -> f x = true) ->
  length (filter g l) <= length (filter f l).
Proof.
  intros H. induction l as [|x l IH]; cbn; [lia|].
  destruct (g x) eqn:G; [rewrite (H _ G); cbn; lia|]. destruct (f x); cbn; lia.
Qed.
Lemma filter_lt {A} (f g : A -> bool) l x : (forall x, g x = true -> f x = true) ->
  In x l -> f x = true -> g x = false -> length (filter g l) < length (filter f l).
Proof.
  intros H. induction l as [|y l IH]; cbn; [tauto|]. intros [->|Hx] F G.
  - rewrite F, G. pose proof (filter_le f g l H). cbn. lia.
  - specialize (IH Hx F G). destruct (g y) eqn:Gy; [rewrite (H _ Gy); cbn; lia|]. destruct (f y); cbn; lia.
Qed.

Lemma push_cycle rs u rs' : ps_push rs u = (true, rs') ->
  ps_cycle rs u = false /\ forall v, ps_cycle rs' v = (streq u v || ps_cycle rs v)%bool.
Proof.
  unfold ps_push. destruct (ps_cycle rs u); [discriminate|]. intros H. injection H as <-.
  split; [reflexivity|]. intros v. cbn. destruct (streq u v); [reflexivity|].
  destruct rs; reflexivity.
Qed.
Lemma left_push rs u rs' : In u U -> ps_push rs u = (true, rs') -> left_over rs' < left_over rs.
Proof.
  intros Hu H. apply push_cycle in H. destruct H as [H1 H2]. unfold left_over.
  apply (filter_lt _ _ U u); [|exact Hu| |].
  - intros v. rewrite H2. destruct (streq u v); cbn; auto; discriminate.
  - rewrite H1. reflexivity.
  - rewrite H2, streq_refl. reflexivity.
Qed.

(** Terms of the local context whose definition has not begun. *)
Definition pend (m : merged) (dm : dmap) : nat :=
  length (filter (fun k => match dget (KKey k) dm with None => true | Some _ => false end) (m_keys m)).

Lemma pend_grows m d d' : grows d d' -> pend m d' <= pend m d.
Proof.
  intros G. apply filter_le. intros k. specialize (G (KKey k)).
  destruct (dget (KKey k) d); [|auto]. destruct (dget (KKey k) d'); [discriminate|].
  intros _. exfalso. apply G; congruence.
Qed.
Lemma m_get_keys m k : m_get m (KKey k) <> None -> In k (m_keys m).
Proof.
  assert (A : forall l : list (string * nullable tdef), assoc k l <> None -> In k (map fst l)).
  { induction l as [|[x v] l IH]; cbn; [congruence|]. destruct (streq_spec k x) as [->|]; auto. }
  unfold m_get, m_keys, or_else, def_get. intros H. apply in_or_app.
  destruct (assoc k (cd_bindings (m_base m))) eqn:E; cbn in H.
  - right. apply A. congruence.
  - left. destruct (m_imported m) as [i|]; [|congruence]. apply filter_In. rewrite E. split; [|reflexivity].
    apply A. destruct (assoc k (cd_bindings i)); [discriminate|contradiction].
Qed.
Lemma pend_begin m k dm : dget (KKey k) dm = None -> m_get m (KKey k) <> None ->
  pend m ((KKey k, true) :: dm) < pend m dm.
Proof.
  intros H1 H2. apply (filter_lt _ _ _ k).
  - intros x. cbn. destruct (streq x k); [discriminate|auto].
  - apply m_get_keys, H2.
  - rewrite H1. reflexivity.
  - cbn. rewrite streq_refl. reflexivity.
Qed.

(** Entries of a merged context come from its two definitions. *)
Lemma m_get_scoped m k v lc : m_get m (KKey k) = Some (EvDef v) -> te_context (expanded_of v) = Some lc ->
  scoped lc (m_base m) \/ exists i, m_imported m = Some i /\ scoped lc i.
Proof.
  assert (A : forall (l : list (string * nullable tdef)) v, assoc k l = Some v -> In (k, v) l).
  { induction l as [|[x w] l IH]; cbn; [discriminate|]. intros w'. destruct (streq_spec k x) as [->|].
    - intros H. injection H as ->. left. reflexivity.
    - intros H. right. auto. }
  intros H Hc. destruct v as [|[s|e]]; try discriminate Hc. cbn in Hc.
  unfold m_get, or_else, def_get in H.
  destruct (assoc k (cd_bindings (m_base m))) eqn:E; cbn in H.
  - injection H as ->. left. exists k, e. auto.
  - destruct (m_imported m) as [i|]; [|discriminate]. right. exists i. split; [reflexivity|].
    destruct (assoc k (cd_bindings i)) eqn:E'; cbn in H; [|discriminate]. injection H as ->. exists k, e. auto.
Qed.

Section Define.
Variable m : merged.
Variable rs : pstack.
Variable N : nat.
Hypothesis HN : forall k v lc, m_get m (KKey k) = Some (EvDef v) -> te_context (expanded_of v) = Some lc ->
  forall n a b o, N <= n -> In b B -> e_process (engine io ld n) a lc rs b o <> Err EFuel.

Lemma define_fuel j : forall n s k b p o, In b B -> pend m (snd s) <= j -> N + 1 + j <= n ->
  e_define (engine io ld n) s m (KKey k) rs b p o <> Err EFuel.
Proof.
  induction j as [j IH] using lt_wf_ind. intros n s k b p o Hb HP Hn.
  destruct n as [|n]; [lia|]. cbn [engine e_define].
  apply (define_body_noerr io EFuel (or_introl eq_refl) (engine io ld n) m rs o (fun dm => S (pend m dm) <= j)).
  - intros d d' G H. pose proof (pend_grows m d d' G). lia.
  - intros s1 k1 s2 H. eapply define_grows; exact H.
  - intros s1 k1 H. apply (IH (pend m (snd s1))); [lia|exact HB0|lia|lia].
  - intros G M. pose proof (pend_begin m k (snd s) G M). lia.
  - discriminate.
  - intros v c lc M C. eapply HN; [exact M|exact C|lia|exact Hb].
  - discriminate.
Qed.

Lemma define_type_fuel n s b p o : e_define (engine io ld (S n)) s m (KKeyword KType) rs b p o <> Err EFuel.
Proof.
  cbn [engine e_define]. unfold define_body. destruct (dget (KKeyword KType) (snd s)) as [[]|]; try discriminate.
  assert (forall v, m_get m (KKeyword KType) <> Some (EvDef v)) as X.
  { intros v. unfold m_get, or_else, def_get. destruct (cd_type (m_base m)); [discriminate|].
    destruct (m_imported m) as [i|]; [|discriminate]. destruct (cd_type i); discriminate. }
  destruct (m_get m (KKeyword KType)) as [[]|]; try discriminate.
  - unfold define_type_term. destruct (is_10 o); discriminate.
Qed.

Lemma define_all_fuel n c b o : In b B -> N + 1 + length (m_keys m) <= n -> define_all (engine io ld n) c m rs b o <> Err EFuel.
Proof.
  intros Hb Hn. unfold define_all. destruct n as [|n]; [lia|].
  apply bind_noerr.
  - destruct (m_field cd_type m); [apply define_type_fuel|discriminate].
  - intros s1 _. apply bind_noerr; [|discriminate].
    assert (forall ks s, define_keys (engine io ld (S n)) ks s m rs b (match m_field cd_protected m with Some p => p | None => false end) o <> Err EFuel) as X.
    { induction ks as [|k ks IH]; intros s; cbn [define_keys]; [discriminate|].
      apply bind_noerr; [|intros; apply IH].
      apply (define_fuel (pend m (snd s))); [exact Hb|lia|].
      assert (pend m (snd s) <= length (m_keys m)); [|lia].
      unfold pend. clear. induction (m_keys m) as [|x l IH]; cbn; [lia|]. destruct (dget (KKey x) (snd s)); cbn; lia. }
    apply X.
Qed.
End Define.

(** [enough L lc]: some fuel is enough to process [lc] whenever at most [L] URLs remain. *)
Definition enough (L : nat) (lc : lcontext) : Prop :=
  exists N, forall n a rs b o, N <= n -> In b B -> left_over rs <= L -> e_process (engine io ld n) a lc rs b o <> Err EFuel.

Lemma ef : EFuel = EFuel \/ EFuel = EPanic. Proof. auto. Qed.

Lemma merged_fuel r c m rs b o : (forall c, define_all r c m rs b o <> Err EFuel) ->
  process_merged io r c m rs b o <> Err EFuel.
Proof.
  intros H. unfold process_merged. apply bind_noerr; [|intros c1 _; apply bind_noerr; [|intros c2 _; apply bind_noerr; [|intros c3 _; apply H]]].
  - unfold process_base. destruct (ps_is_empty rs); [|discriminate]. destruct (m_field cd_base m) as [[|i]|]; try discriminate.
    destruct (iri_ok io i); [discriminate|]. destruct (resolve_iri io i (ac_base c)); discriminate.
  - unfold process_vocab. destruct (m_field cd_vocab m) as [[|i]|]; try discriminate.
    apply bind_noerr; [apply (simple_noerr io EFuel ef)|]. intros t _. destruct t as [[]|]; discriminate.
  - unfold process_direction. destruct (m_field cd_direction m); [destruct (is_10 o)|]; discriminate.
Qed.

Lemma scoped_finite d (L : nat) : (forall lc, scoped lc d -> enough L lc) ->
  exists N, forall n lc, N <= n -> scoped lc d -> forall a rs b o, In b B -> left_over rs <= L ->
    e_process (engine io ld n) a lc rs b o <> Err EFuel.
Proof.
  intros H.
  destruct (uniform (cd_bindings d) (fun p n => forall e lc, snd p = NSome (TExpanded e) -> te_context e = Some lc ->
    forall a rs b o, In b B -> left_over rs <= L -> e_process (engine io ld n) a lc rs b o <> Err EFuel)) as [N HN].
  - intros [k v] Hin. cbn [snd]. destruct v as [|[s|e]].
    + exists 0. intros; discriminate.
    + exists 0. intros; discriminate.
    + destruct (te_context e) as [lc|] eqn:C.
      * destruct (H lc) as [N HN]; [exists k, e; auto|]. exists N. intros n Hn e' lc' E C' a rs b o Hb Hl.
        injection E as <-. rewrite C in C'. injection C' as <-. apply HN; assumption.
      * exists 0. intros n _ e' lc' E C'. injection E as <-. congruence.
  - exists N. intros n lc Hn (k & e & Hin & C) a rs b o Hb Hl. eapply (HN n Hn (k, NSome (TExpanded e)) Hin); [reflexivity|exact C|exact Hb|exact Hl].
Qed.

Lemma dec_resolve x u : {b | In b B /\ resolve_iri io x b = Some u} + {forall b, In b B -> resolve_iri io x b <> Some u}.
Proof.
  clear HB0 HBU. induction B as [|b l IH]; [right; intros b []|].
  destruct IH as [[b' [H1 H2]]|H]; [left; exists b'; split; [right; exact H1|exact H2]|].
  destruct (resolve_iri io x b) as [u'|] eqn:E.
  - destruct (streq_spec u' u) as [->|Nu]; [left; exists b; split; [left; reflexivity|exact E]|].
    right. intros b' [<-|Hb]; [congruence|auto].
  - right. intros b' [<-|Hb]; [congruence|auto].
Qed.

Lemma enough_all L : (forall u lc, ld u = LdContext lc -> Acc (needs io ld) lc) ->
  forall lc, Acc (needs io ld) lc -> enough L lc.
Proof.
  intros HA. induction L as [L IHL] using lt_wf_ind. intros lc Hacc.
  induction Hacc as [lc _ IH].
  (* remote contexts *)
  assert (R : exists N, forall n, N <= n -> forall u, In u U -> forall lc', ld u = LdContext lc' ->
            forall a rs b o, In b B -> left_over rs < L -> e_process (engine io ld n) a lc' rs b o <> Err EFuel).
  { apply (uniform U (fun u n => forall lc', ld u = LdContext lc' -> forall a rs b o, In b B -> left_over rs < L ->
       e_process (engine io ld n) a lc' rs b o <> Err EFuel)). intros u Hu.
    destruct L as [|L]; [exists 0; intros; lia|].
    destruct (ld u) as [| |lc'] eqn:E; try (exists 0; intros; discriminate).
    destruct (IHL L ltac:(lia) lc' (HA u lc' E)) as [N HN]. exists N. intros n Hn lc'' E'' a rs b o Hb Hl.
    injection E'' as <-. apply HN; [exact Hn|exact Hb|lia]. }
  destruct R as [NR HR].
  (* definitions *)
  assert (E : exists N, forall n, N <= n -> forall e, In e (entries_of lc) ->
            forall d, e = CEDef d -> forall c rs b o, In b B -> left_over rs <= L -> process_def io ld (engine io ld n) c d rs b o <> Err EFuel).
  { apply (uniform (entries_of lc) (fun e n => forall d, e = CEDef d -> forall c rs b o, In b B -> left_over rs <= L ->
        process_def io ld (engine io ld n) c d rs b o <> Err EFuel)). intros e He.
    destruct e as [|i|d]; try (exists 0; intros; discriminate).
    destruct (scoped_finite d L) as [N0 HN0].
    { intros lc' HS. apply IH. exists d. split; [exact He|left; exact HS]. }
    assert (I : exists N, forall n, N <= n -> forall u, In u U -> forall i x b, In b B -> cd_import d = Some x ->
              resolve_iri io x b = Some u -> ld u = LdContext (LOne (CEDef i)) ->
              length (cd_bindings i) <= n /\
              forall lc', scoped lc' i -> forall a rs b o, In b B -> left_over rs <= L -> e_process (engine io ld n) a lc' rs b o <> Err EFuel).
    { apply (uniform U (fun u n => forall i x b, In b B -> cd_import d = Some x ->
              resolve_iri io x b = Some u -> ld u = LdContext (LOne (CEDef i)) -> length (cd_bindings i) <= n /\
              forall lc', scoped lc' i -> forall a rs b o, In b B -> left_over rs <= L -> e_process (engine io ld n) a lc' rs b o <> Err EFuel)).
      intros u Hu. destruct (cd_import d) as [x|] eqn:X; [|exists 0; intros; discriminate].
      destruct (ld u) as [| |[[| |i]|]] eqn:Lu; try (exists 0; intros; discriminate).
      destruct (dec_resolve x u) as [[b [Hb Hr]]|NE].
      - destruct (scoped_finite i L) as [N1 HN1].
        { intros lc' HS. apply IH. exists d. split; [exact He|]. right. exists x, b, u, i. auto. }
        exists (N1 + length (cd_bindings i)). intros n Hn i' x' b' _ _ _ Ei. injection Ei as <-. split; [lia|].
        intros lc' HS. apply HN1; [lia|exact HS].
      - exists 0. intros n _ i' x' b' Hb' Ex Er _. injection Ex as <-. exfalso. apply (NE b' Hb' Er). }
    destruct I as [NI HI].
    exists (N0 + NI + 1 + length (cd_bindings d) + NI). intros n Hn d' Ed c rs b o Hb Hl. injection Ed as <-.
    unfold process_def. destruct (match cd_version d with Some _ => _ | None => _ end); [discriminate|].
    apply bind_noerr.
    - unfold import_of. destruct (cd_import d); [|discriminate]. destruct (is_10 o); [discriminate|].
      destruct (resolve_iri io s b); [|discriminate]. destruct (ld s0) as [| |[[| |i]|]]; try discriminate.
      destruct (cd_import i); discriminate.
    - intros i Ei. apply merged_fuel. intros c'.
      assert (K : length (m_keys (MkMerged d i)) <= NI + length (cd_bindings d)).
      { unfold m_keys. cbn [m_imported m_base]. rewrite app_length, map_length. destruct i as [i|]; [|cbn; lia].
        apply import_def in Ei. destruct Ei as (x & u & Hx & Hr & Hu & _).
        destruct (HI NI (Nat.le_refl _) u (HU _ _ Hu) i x b Hb Hx Hr Hu) as [Hlen _].
        rewrite <- (map_length fst) in Hlen.
        match goal with |- context [filter ?f ?l] => assert (length (filter f l) <= length l) as Hf end.
        { generalize (map fst (cd_bindings i)) as l. induction l as [|y l IHl]; cbn; [lia|].
          destruct (assoc y (cd_bindings d)); cbn; lia. }
        lia. }
      apply (define_all_fuel _ _ (N0 + NI)); [|exact Hb|lia].
      intros k v lc' M C n' a' b' o' Hn' Hb'.
      destruct (m_get_scoped _ _ _ _ M C) as [HS|(i' & Mi & HS)]; cbn [m_base m_imported] in *.
      + apply HN0; [lia|exact HS|exact Hb'|exact Hl].
      + subst i. apply import_def in Ei. destruct Ei as (x & u & Hx & Hr & Hu & _).
        destruct (HI n' ltac:(lia) u (HU _ _ Hu) i' x b Hb Hx Hr Hu) as [_ HP]. apply HP; assumption. }
  destruct E as [NE HE].
  exists (1 + NR + NE). intros n a rs b o Hn Hb Hl. destruct n as [|n]; [lia|]. cbn [engine e_process].
  unfold process_body. apply bind_noerr.
  { unfold propagate_of. destruct lc as [[| |d]|]; try discriminate. destruct (cd_propagate d); [destruct (is_10 o)|]; discriminate. }
  intros o' _. match goal with |- process_entries _ _ _ _ _ ?c _ _ _ <> _ => generalize c as c1 end.
  specialize (HE n ltac:(lia)). specialize (HR n ltac:(lia)). clear IH. revert HE rs Hl.
  induction (entries_of lc) as [|e es IHes]; intros HE rs Hl c1; cbn [process_entries]; [discriminate|].
  apply bind_noerr.
  - destruct e as [|i|d].
    + apply bind_noerr; [|discriminate]. unfold process_null. destruct (_ && _)%bool; discriminate.
    + unfold process_iri. destruct (resolve_iri io i b) as [u|]; [|discriminate].
      destruct (ps_push rs u) as [[] rs2] eqn:P; [|discriminate].
      destruct (ld u) as [| |lc'] eqn:Lu; try discriminate.
      apply bind_noerr; [|discriminate].
      apply (HR u (HU _ _ Lu) lc' Lu); [apply HBU, (HU _ _ Lu)|]. pose proof (left_push _ _ _ (HU _ _ Lu) P). lia.
    + apply bind_noerr; [|discriminate]. apply (HE (CEDef d)); [left; reflexivity|reflexivity|exact Hb|exact Hl].
  - intros [c2 rs2] E2. apply IHes.
    + intros e' He'. apply HE. right. exact He'.
    + destruct e as [|i|d].
      * apply bind_ok in E2. destruct E2 as (c3 & _ & E2). injection E2 as _ <-. exact Hl.
      * unfold process_iri in E2. destruct (resolve_iri io i b) as [u|]; [|discriminate].
        destruct (ps_push rs u) as [[] rs3] eqn:P.
        -- destruct (ld u) as [| |lc'] eqn:Lu; try discriminate.
           apply bind_ok in E2. destruct E2 as (c3 & _ & E2). injection E2 as _ <-.
           pose proof (left_push _ _ _ (HU _ _ Lu) P). lia.
        -- injection E2 as _ <-. unfold ps_push in P. destruct (ps_cycle rs u); [injection P as <-; exact Hl|discriminate].
      * apply bind_ok in E2. destruct E2 as (c3 & _ & E2). injection E2 as _ <-. exact Hl.
Qed.
End Fuel.

(** Processing terminates if only finitely many URLs serve a context and no chain of scoped
    and imported contexts is infinite. *)
Lemma process_terminates io ld U lc :
  (forall u lc, ld u = LdContext lc -> In u U) ->
  (forall u lc, ld u = LdContext lc -> Acc (needs io ld) lc) ->
  Acc (needs io ld) lc -> forall b,
  exists N, forall n a rs o, N <= n -> process_context io ld n a lc rs b o <> Err EFuel.
Proof.
  intros HU HA Hlc b.
  destruct (enough_all io ld U HU (None :: b :: map Some U)) with (L := length U) (lc := lc) as [N HN].
  - left. reflexivity.
  - intros u Hu. right. right. apply in_map, Hu.
  - exact HA.
  - exact Hlc.
  - exists N. intros n a rs o Hn. apply HN; [exact Hn|right; left; reflexivity|].
    unfold left_over. clear. induction U as [|u l IH]; cbn; [lia|]. destruct (negb (ps_cycle rs u)); cbn; lia.
Qed.

(** ** Imported documents without further imports

    Every definition of [lc] only imports definitions whose scoped contexts import nothing. *)
Definition import_once (io : iops) (ld : loader) (lc : lcontext) : Prop :=
  forall d x b u i lc', occurs d lc -> cd_import d = Some x -> resolve_iri io x b = Some u ->
    ld u = LdContext (LOne (CEDef i)) -> scoped lc' i -> import_free lc'.

Lemma import_once_scoped io ld lc lc' d : import_once io ld lc -> In (CEDef d) (entries_of lc) -> scoped lc' d ->
  import_once io ld lc'.
Proof. intros H H1 H2 d' x b u i lc2 H3. apply (H d' x b u i lc2). econstructor 2; eassumption. Qed.

Lemma import_once_acc io ld lc : import_once io ld lc -> Acc (needs io ld) lc.
Proof.
  pose (Q := import_once io ld).
  pose (Pd := fun d : cdef tdef => forall lc', scoped lc' d -> Q lc' -> Acc (needs io ld) lc').
  pose (Pe := fun e => forall d, e = CEDef d -> Pd d).
  pose (Pt := fun t => forall e lc', t = TExpanded e -> te_context e = Some lc' -> Q lc' -> Acc (needs io ld) lc').
  assert (G : forall lc d lc', Q lc -> In (CEDef d) (entries_of lc) -> Pd d ->
     (scoped lc' d \/ exists x b u i, cd_import d = Some x /\ resolve_iri io x b = Some u /\
       ld u = LdContext (LOne (CEDef i)) /\ scoped lc' i) -> Acc (needs io ld) lc').
  { intros lc0 d lc' HI Hd HP [HS|(x & b & u & i & Hx & Hr & Hl & Hs)].
    - apply HP; [exact HS|]. eapply import_once_scoped; eassumption.
    - apply import_free_acc. eapply HI; [apply occ_here, Hd|eassumption..]. }
  apply (lcontext_ind' (fun lc => Q lc -> Acc (needs io ld) lc) Pe Pt).
  - intros e IH HI. constructor. intros lc' (d & Hd & HN). eapply G; [exact HI|exact Hd| |exact HN].
    cbn in Hd. destruct Hd as [->|[]]. exact (IH d eq_refl).
  - intros l IH HI. constructor. intros lc' (d & Hd & HN). eapply G; [exact HI|exact Hd| |exact HN].
    cbn in Hd. rewrite Forall_forall in IH. exact (IH _ Hd d eq_refl).
  - intros d H. discriminate.
  - intros s d H. discriminate.
  - intros d IH d' H. injection H as <-. intros lc' (k & e & Hin & Hc) HI.
    rewrite Forall_forall in IH. specialize (IH _ Hin). cbn in IH. eapply IH; eauto.
  - intros s e lc' H. discriminate.
  - intros e IH e' lc' H Hc HI. injection H as <-. rewrite Hc in IH. cbn in IH. auto.
Qed.

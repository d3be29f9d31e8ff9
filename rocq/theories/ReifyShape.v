(** The conversion of the contexts that result from context processing never panics. *)
From Verif Require Import Prelude Str Keyword Enums LangTag Container Stack ContextSyntax Ctx Process ProcessRel Frame Created Reify ReifyRead.

(** The vocabulary mapping is an identifier, and so is the mapping of a reverse property. *)
Record shaped (c : actx) : Prop := {
  sh_vocab : forall t, ac_vocab c = Some t -> exists i, t = TmId i;
  sh_reverse : forall k d, In (k, d) (ac_defs c) -> nd_reverse d = true -> exists i, nd_value d = Some (TmId i)
}.

Lemma shaped_syntax c : shaped c -> ctx_into_syntax c <> None.
Proof.
  intros [HV HR]. unfold ctx_into_syntax.
  destruct (bindings_syntax (ac_defs c)) as (b & -> & _).
  { intros k d I. unfold def_into_syntax. destruct (nd_reverse d) eqn:R; [|eexists; reflexivity]. destruct (HR k d I R) as (i & ->). eexists. reflexivity. }
  destruct (ac_vocab c) as [t|]; [|discriminate]. destruct (HV t eq_refl) as (i & ->). discriminate.
Qed.

Lemma shaped_new b : shaped (ctx_new b). Proof. constructor; [discriminate|intros k d []]. Qed.
Lemma shaped_same c c' : shaped c -> ac_defs c' = ac_defs c -> ac_vocab c' = ac_vocab c -> shaped c'.
Proof. intros [V R] D E. constructor; [rewrite E; exact V|rewrite D; exact R]. Qed.
Lemma shaped_set c k d : shaped c -> (forall x, d = Some x -> nd_reverse x = true -> exists i, nd_value x = Some (TmId i)) -> shaped (set_normal c k d).
Proof.
  intros [V R] D. constructor; [exact V|]. cbn. unfold mset. intros k' x I.
  assert (M : In (k', x) (mdel k (ac_defs c)) -> In (k', x) (ac_defs c)) by (unfold mdel; intros X; apply filter_In in X; apply X).
  destruct d as [d|]; [destruct I as [I|I]|]; [injection I as <- <-; exact (D d eq_refl)| |]; eauto.
Qed.

Section Define.
Variables (io : iops) (r : eng) (m : merged) (rs : pstack) (o : popts).
Hypothesis IH : forall s k b p o s', shaped (fst s) -> e_define r s m k rs b p o = Ok s' -> shaped (fst s').
Let R (s s' : st) : Prop := shaped (fst s) -> shaped (fst s').

Lemma normal_shaped s0 k b p v s1 ended : shaped (fst s0) -> define_normal io r s0 m k rs b p o v = Ok (s1, ended) -> shaped (fst s1).
Proof.
  intros S H. unfold define_normal in H. cbn zeta in H. apply bind_ok in H. destruct H as (d & E & H).
  assert (D : d = nd_set_protected ndef_default (nd_protected d)).
  { unfold define_protected in E. destruct (te_protected (expanded_of v)); [destruct (is_10 o); [discriminate|]|]; injection E as <-; reflexivity. }
  apply bind_ok in H. destruct H as ([s2 d2] & E2 & H).
  assert (RD : forall s k s', e_define r s m (KKey k) rs None false (with_no_override o) = Ok s' -> R s s') by (intros s q s' X Y; exact (IH _ _ _ _ _ _ Y X)).
  assert (RR : forall s, R s s) by (intros s X; exact X). assert (RT : forall a b c, R a b -> R b c -> R a c) by (unfold R; auto).
  assert (S2 : shaped (fst s2)).
  { refine (rel_type io r R m rs RR RT o RD _ _ _ _ _ E2 _). cbn. apply shaped_set; [exact S|discriminate]. }
  assert (D2 : exists y, d2 = nd_set_typ d y).
  { unfold define_type in E2. destruct (te_type (expanded_of v)); [|injection E2 as _ <-; exists None; rewrite D; reflexivity].
    apply bind_ok in E2. destruct E2 as ([s3 t] & _ & E2). destruct t as [t|]; [|injection E2 as _ <-; exists None; rewrite D; reflexivity].
    destruct (_ && _)%bool; [discriminate|]. destruct (ty_of_term t); [|discriminate]. injection E2 as _ <-. eexists. reflexivity. }
  destruct D2 as (y & D2).
  destruct (te_reverse (expanded_of v)) as [rev|].
  - unfold define_reverse in H. destruct (_ || _)%bool; [discriminate|]. destruct (is_keyword_like rev); [injection H as <- _; exact S2|].
    apply bind_ok in H. destruct H as ([s3 t] & E3 & H). pose proof (rel_expand io r R m rs RR RT o RD _ _ _ _ _ _ E3 S2) as S3.
    destruct t as [[|i|]|]; try discriminate. destruct (id_valid i); [|discriminate]. apply bind_ok in H. destruct H as (d4 & E4 & H). injection H as <- _.
    apply shaped_set; [exact S3|]. intros x X _. injection X as <-. cbn. exists i.
    unfold reverse_container in E4. destruct (te_container (expanded_of v)) as [[|c]|]; [| |]; try (injection E4 as <-; reflexivity).
    destruct (c_from_syntax (NSome c)) as [[]|]; try discriminate; injection E4 as <-; reflexivity.
  - apply bind_ok in H. destruct H as ([s3 d3] & E3 & H).
    assert (S3 : shaped (fst s3)).
    { refine (rel_mapping io r R m rs RR RT o RD k _ _ _ _ _ _ _ E3 S2). intros s X. exact X. }
    destruct d3 as [d3|]; [|injection H as <- _; exact S3]. apply bind_ok in H. destruct H as (s4 & E4 & H). injection H as <- _.
    assert (D3 : exists v' p', d3 = nd_set_prefix (nd_set_value d2 v') p').
    { unfold define_mapping in E3.
      assert (NI : forall s1 q, (do (s1, t) <- define_no_id io r s2 m k rs o ; Ok (s1, Some (nd_set_value d2 (Some t)))) = Ok (s1, Some q) -> exists v' p', q = nd_set_prefix (nd_set_value d2 v') p').
      { intros z q X. apply bind_ok in X. destruct X as ([z' t] & _ & X). injection X as _ <-. exists (Some t), (nd_prefix d2). destruct d2; reflexivity. }
      destruct (te_id (expanded_of v)) as [i|]; [|eapply NI; exact E3]. destruct (id_differs i k); [|eapply NI; exact E3].
      destruct i as [|i]; [injection E3 as _ <-; exists (nd_value d2), (nd_prefix d2); destruct d2; reflexivity|].
      unfold define_id in E3. destruct (_ && _)%bool; [discriminate|]. apply bind_ok in E3. destruct E3 as ([z t] & _ & E3).
      destruct (match t with Some (TmKw KContext) => true | _ => false end); [discriminate|]. destruct (match t with Some (TmId p) => negb (id_valid p) | _ => false end); [discriminate|].
      apply bind_ok in E3. destruct E3 as (z' & _ & E3). destruct (_ && _)%bool.
      - destruct t as [t|]; [|discriminate]. injection E3 as _ <-. eexists _, _. reflexivity.
      - injection E3 as _ <-. exists t, (nd_prefix d2). destruct d2; reflexivity. }
    destruct D3 as (v' & p' & ->). subst d2. rewrite D in E4.
    apply rest_spec in E4; [|reflexivity..]. destruct E4 as (d5 & -> & _ & RV & _). cbn in RV. apply shaped_set; [exact S3|].
    intros x X Y. injection X as <-. congruence.
Qed.
End Define.

Lemma define_shaped io ld m n : forall rs s k b p o s', shaped (fst s) -> e_define (engine io ld n) s m k rs b p o = Ok s' -> shaped (fst s').
Proof.
  induction n as [|n IH]; intros rs s k b p o s' S H; [discriminate|]. cbn in H. unfold define_body in H.
  destruct (dget k (snd s)) as [[]|]; [discriminate|injection H as <-; exact S|]. cbn zeta in H.
  destruct (match k with KKey s => streq s "" | KKeyword _ => false end); [discriminate|].
  destruct (m_get m k) as [[t|v|]|]; [| |discriminate|injection H as <-; exact S].
  - apply bind_ok in H. destruct H as (c & E & H). injection H as <-. unfold define_type_term in E. destruct (is_10 o); [discriminate|].
    injection E as <-. refine (shaped_same _ _ S _ _); reflexivity.
  - destruct k as [k|]; [|discriminate]. apply bind_ok in H. destruct H as ([s2 ended] & E & H).
    pose proof (normal_shaped io (engine io ld n) m rs o (IH rs) (fst s, _) _ _ _ _ _ _ S E) as S2. injection H as <-. destruct ended; exact S2.
Qed.

Lemma merged_shaped io ld n c m rs b o c' : process_merged io (engine io ld n) c m rs b o = Ok c' -> shaped c -> shaped c'.
Proof.
  intros H S. unfold process_merged in H. apply bind_ok in H. destruct H as (c1 & E1 & H). apply bind_ok in H. destruct H as (c2 & E2 & H).
  apply bind_ok in H. destruct H as (c3 & E3 & H).
  assert (S1 : shaped c1).
  { pose proof (process_base_spec _ _ _ _ _ E1) as (_ & V & _). apply base_defs in E1. refine (shaped_same _ _ S _ V). symmetry. apply E1. }
  assert (S2 : shaped c2).
  { unfold process_vocab in E2. destruct (m_field cd_vocab m) as [[|v]|]; [| |injection E2 as <-; exact S1].
    - injection E2 as <-. destruct S1 as [V D]. constructor; [discriminate|exact D].
    - apply bind_ok in E2. destruct E2 as (t & _ & E2). destruct t as [[|i|]|]; try discriminate. injection E2 as <-.
      destruct S1 as [V D]. constructor; [|exact D]. cbn. intros j X. injection X as <-. eauto. }
  assert (S3 : shaped c3).
  { pose proof (process_direction_spec _ _ _ _ E3) as (_ & _ & V & _). apply direction_defs in E3. refine (shaped_same _ _ S2 _ V). symmetry. apply E3. }
  unfold define_all in H. apply bind_ok in H. destruct H as (s1 & E4 & H). apply bind_ok in H. destruct H as (s2 & E5 & H). injection H as <-.
  assert (S4 : shaped (fst s1)).
  { destruct (m_field cd_type m); [|injection E4 as <-; exact S3]. exact (define_shaped _ _ _ _ _ (c3, []) _ _ _ _ _ S3 E4). }
  revert E5 S4. apply (keys_rel io ld (fun s s' => shaped (fst s) -> shaped (fst s'))); auto.
  intros s k s' E S5. exact (define_shaped _ _ _ _ _ _ _ _ _ _ _ S5 E).
Qed.

Theorem process_shaped io ld n a lc rs b o c' : process_context io ld n a lc rs b o = Ok c' -> shaped a -> shaped c'.
Proof.
  intros H. refine (entry_process io ld shaped (fun _ => True) (fun _ => True) _ _ _ _ _ n a lc rs b o c' I _ H); auto.
  - intros c p S _. eapply shaped_same; [exact S|reflexivity|reflexivity].
  - intros a' c o' c1 _ E Sa Sc. unfold process_null in E. destruct (_ && _)%bool; [discriminate|]. injection E as <-.
    destruct (po_propagate o'); [apply shaped_new|]. eapply shaped_same; [apply (shaped_new (ac_orig a'))|reflexivity|reflexivity].
  - intros n0 c m rs0 b0 o0 c1 _ _ _. apply merged_shaped.
  - intros u lc' _ e _. exact I.
  - intros e _. exact I.
Qed.

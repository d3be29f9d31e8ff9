(** What the node map built from quads contains. *)
From Verif Require Import Prelude Json Enums LangTag LangString Str Keyword Container ContextSyntax Ctx Object ObjectJson Relabel Rdf RdfProofs FromRdf.
From Coq Require Import NArith Lia Arith.

Lemma vid_eqb_spec a b : reflect (a = b) (vid_eqb a b).
Proof.
  destruct a as [u|u], b as [v|v]; cbn; try (constructor; congruence); destruct (streq_spec u v); constructor; congruence.
Qed.
Lemma ltype_eqb_spec a b : reflect (a = b) (ltype_eqb a b).
Proof.
  destruct a as [u|u], b as [v|v]; cbn; try (constructor; congruence); destruct (streq_spec u v); constructor; congruence.
Qed.
Lemma rval_eqb_spec a b : reflect (a = b) (rval_eqb a b).
Proof.
  destruct a as [i|s t], b as [j|s' t']; cbn; try (constructor; congruence).
  - destruct (vid_eqb_spec i j); constructor; congruence.
  - destruct (streq_spec s s'), (ltype_eqb_spec t t'); constructor; congruence.
Qed.
Lemma rval_eqb_refl a : rval_eqb a a = true. Proof. destruct (rval_eqb_spec a a); congruence. Qed.
Lemma type_eqb_spec a b : reflect (a = b) (type_eqb a b).
Proof. destruct a as [a|], b as [b|]; cbn; try (constructor; congruence). destruct (rval_eqb_spec a b); constructor; congruence. Qed.

Lemma add_in {A} (e : A -> A -> bool) (He : forall a b, reflect (a = b) (e a b)) x l y : In y (add e x l) <-> y = x \/ In y l.
Proof.
  unfold add. destruct (existsb (e x) l) eqn:E.
  - apply existsb_exists in E. destruct E as (z & I & E). destruct (He x z) as [->|]; [|discriminate]. split; [auto|intros [->|H]; assumption].
  - rewrite in_app_iff. cbn. split; [intros [H|[<-|[]]]; auto|intros [->|H]; auto].
Qed.
Definition pent (m : list (rval * list rval)) (p o : rval) : Prop := exists l, In (p, l) m /\ In o l.
Lemma add_at_in p o m q x : pent (add_at p o m) q x <-> pent m q x \/ (q = p /\ x = o).
Proof.
  unfold pent. induction m as [|[k v] m IH]; cbn [add_at].
  - split.
    + intros (l & [E|[]] & I). injection E as <- <-. destruct I as [<-|[]]. auto.
    + intros [(l & [] & _)|[-> ->]]. exists [o]. cbn. auto.
  - destruct (rval_eqb_spec p k) as [->|N]; split.
    + intros (l & [E|I1] & I2).
      * injection E as <- <-. apply (add_in _ rval_eqb_spec) in I2. destruct I2 as [->|I2]; [auto|]. left. exists v. split; [left; reflexivity|exact I2].
      * left. exists l. split; [right; exact I1|exact I2].
    + intros [(l & [E|I1] & I2)|[-> ->]].
      * injection E as <- <-. exists (add rval_eqb o v). split; [left; reflexivity|]. apply (add_in _ rval_eqb_spec). auto.
      * exists l. split; [right; exact I1|exact I2].
      * exists (add rval_eqb o v). split; [left; reflexivity|]. apply (add_in _ rval_eqb_spec). auto.
    + intros (l & [E|I1] & I2).
      * injection E as <- <-. left. exists v. split; [left; reflexivity|exact I2].
      * destruct (proj1 IH (ex_intro _ l (conj I1 I2))) as [(l' & I3 & I4)|H]; [left; exists l'; split; [right; exact I3|exact I4]|auto].
    + intros [(l & [E|I1] & I2)|H].
      * injection E as <- <-. exists v. split; [left; reflexivity|exact I2].
      * destruct (proj2 IH (or_introl (ex_intro _ l (conj I1 I2)))) as (l' & I3 & I4). exists l'. split; [right; exact I3|exact I4].
      * destruct (proj2 IH (or_intror H)) as (l' & I3 & I4). exists l'. split; [right; exact I3|exact I4].
Qed.
Lemma add_at_nil p o m : add_at p o m <> [].
Proof. destruct m as [|[k v] m]; cbn; [discriminate|]. destruct (rval_eqb p k); discriminate. Qed.
Lemma add_nil {A} (e : A -> A -> bool) x l : add e x l <> [].
Proof. unfold add. destruct (existsb (e x) l) eqn:E; [|destruct l; discriminate]. destruct l; discriminate. Qed.

(** ** Lookup *)
Definition s_at (k : rval) (g : sgraph) : sres := match s_get k g with Some r => r | None => sr_new end.
Lemma s_get_mut k k' f g : s_get k (s_mut k' f g) = if rval_eqb k k' then Some (f (s_at k g)) else s_get k g.
Proof.
  unfold s_at. induction g as [|[k2 r] g IH]; cbn [s_mut s_get].
  - destruct (rval_eqb k k'); reflexivity.
  - destruct (rval_eqb_spec k' k2) as [<-|N]; cbn [s_get].
    + destruct (rval_eqb k k'); reflexivity.
    + destruct (rval_eqb_spec k k2) as [->|N2]; [|exact IH]. destruct (rval_eqb_spec k2 k'); [congruence|reflexivity].
Qed.
Lemma s_at_mut k k' f g : s_at k (s_mut k' f g) = if rval_eqb k k' then f (s_at k g) else s_at k g.
Proof. unfold s_at at 1. rewrite s_get_mut. destruct (rval_eqb k k'); reflexivity. Qed.
Lemma s_mut_keys k f g : map fst (s_mut k f g) = if existsb (rval_eqb k) (map fst g) then map fst g else map fst g ++ [k].
Proof.
  induction g as [|[k2 r] g IH]; cbn [s_mut map fst existsb]; [reflexivity|].
  destruct (rval_eqb_spec k k2) as [->|N]; cbn [map fst orb]; [reflexivity|]. rewrite IH. destruct (existsb (rval_eqb k) (map fst g)); reflexivity.
Qed.
Lemma NoDup_snoc {A} (l : list A) x : NoDup l -> ~ In x l -> NoDup (l ++ [x]).
Proof.
  intros N I. induction N as [|y l Iy N IH]; cbn; [repeat constructor; intros []|]. constructor.
  - rewrite in_app_iff. intros [H|[->|[]]]; [contradiction|]. apply I. left. reflexivity.
  - apply IH. intros H. apply I. right. exact H.
Qed.
Lemma s_mut_nodup k f g : NoDup (map fst g) -> NoDup (map fst (s_mut k f g)).
Proof.
  intros N. rewrite s_mut_keys. destruct (existsb (rval_eqb k) (map fst g)) eqn:E; [exact N|]. apply NoDup_snoc; [exact N|].
  intros I. rewrite (proj2 (existsb_exists _ _)) in E; [discriminate|]. exists k. split; [exact I|apply rval_eqb_refl].
Qed.
Lemma s_get_in k r g : s_get k g = Some r -> In (k, r) g.
Proof.
  induction g as [|[k2 r2] g IH]; cbn [s_get]; [discriminate|]. destruct (rval_eqb_spec k k2) as [->|N]; [intros [= ->]; left; reflexivity|right; auto].
Qed.
Lemma s_in_get k r g : NoDup (map fst g) -> In (k, r) g -> s_get k g = Some r.
Proof.
  induction g as [|[k2 r2] g IH]; intros N I; [destruct I|]. cbn [s_get]. inversion N as [|? ? N1 N2]; subst. destruct I as [E|I].
  - injection E as -> ->. rewrite rval_eqb_refl. reflexivity.
  - destruct (rval_eqb_spec k k2) as [->|Nk]; [|apply IH; assumption]. exfalso. apply N1. apply (in_map fst) in I. exact I.
Qed.

(** ** The graphs *)
Definition r_type : vid := VIri (rdf "type").
Definition plain (p : vid) : Prop := p <> r_type /\ p <> r_first /\ p <> r_rest.
Lemma rdf_property_spec p : match rdf_property p with Some PType => p = r_type | Some PFirst => p = r_first | Some PRest => p = r_rest | None => plain p end.
Proof.
  destruct p as [u|b]; cbn [rdf_property]; [|repeat split; discriminate].
  destruct (streq_spec u (rdf "type")) as [->|N1]; [reflexivity|]. destruct (streq_spec u (rdf "first")) as [->|N2]; [reflexivity|].
  destruct (streq_spec u (rdf "rest")) as [->|N3]; [reflexivity|]. unfold plain, r_type, r_first, r_rest. repeat split; congruence.
Qed.
(** The resource is the object of exactly one triple, whose predicate is another one. *)
Definition unmentioned (T : list triple) (r : rval) : Prop := forall s p, ~ In (s, p, r) T.
Definition once_by (T : list triple) (r : rval) (s p : vid) : Prop :=
  exists pre post, T = pre ++ (s, p, r) :: post /\ unmentioned pre r /\ unmentioned post r /\ RId p <> r.
Definition once (T : list triple) (r : rval) : Prop := exists s p, once_by T r s p.
Lemma once_by_in T r s p : once_by T r s p -> In (s, p, r) T.
Proof. intros (pre & post & -> & _). apply in_or_app. right. left. reflexivity. Qed.
Lemma once_by_unique T r s p s' p' : once_by T r s p -> In (s', p', r) T -> s' = s /\ p' = p.
Proof.
  intros (pre & post & -> & U1 & U2 & _) I. apply in_app_or in I. destruct I as [I|[E|I]].
  - elim (U1 _ _ I).
  - injection E as -> ->. auto.
  - elim (U2 _ _ I).
Qed.

Record facts (T : list triple) (k : rval) (r : sres) : Prop := MkFacts {
  f_types : forall t, In t (sr_types r) <-> exists s o, k = RId s /\ In (s, r_type, o) T /\ t = rdf_type_of o;
  f_props : forall p o, pent (sr_props r) p o <-> exists s q, k = RId s /\ p = RId q /\ plain q /\ In (s, q, o) T;
  f_first : forall o, In o (sr_first r) <-> exists s, k = RId s /\ In (s, r_first, o) T;
  f_rest : forall o, In o (sr_rest r) <-> exists s, k = RId s /\ In (s, r_rest, o) T;
  f_reverse : forall x, In x (sr_reverse r) -> x = RId r_rest;
  f_values : sr_values r = None;
  f_refs : sr_refs r = 1%N <-> once T k;
  f_none : sr_refs r = 0%N <-> unmentioned T k;
  f_max : (sr_refs r <= usize_max)%N;
  f_empty : sr_props r <> [] -> exists p o, pent (sr_props r) p o
}.
Lemma unmentioned_app T T' r : unmentioned (T ++ T') r <-> unmentioned T r /\ unmentioned T' r.
Proof.
  unfold unmentioned. split.
  - intros H. split; intros s p I; apply (H s p), in_or_app; auto.
  - intros [H1 H2] s p I. apply in_app_or in I. destruct I as [I|I]; [elim (H1 s p I)|elim (H2 s p I)].
Qed.
Lemma unmentioned_one s p o r : unmentioned [(s, p, o)] r <-> r <> o.
Proof.
  unfold unmentioned. split.
  - intros H ->. apply (H s p). left. reflexivity.
  - intros N s' p' [E|[]]. injection E as -> -> ->. apply N. reflexivity.
Qed.
Lemma once_snoc T s p o r : once (T ++ [(s, p, o)]) r <-> (once T r /\ r <> o) \/ (r = o /\ unmentioned T r /\ RId p <> o).
Proof.
  split.
  - intros (s' & p' & pre & post & E & U1 & U2 & N). destruct post as [|t post] using rev_ind.
    + apply app_inj_tail in E. destruct E as [-> [= -> -> ->]]. right. auto.
    + rewrite app_comm_cons, app_assoc in E. apply app_inj_tail in E. destruct E as [-> <-]. apply unmentioned_app in U2. destruct U2 as [U2 U3].
      apply unmentioned_one in U3. left. split; [|exact U3]. exists s', p', pre, post. auto.
  - intros [[(s' & p' & pre & post & -> & U1 & U2 & N) Ne]|(-> & U & N)].
    + exists s', p', pre, (post ++ [(s, p, o)]). rewrite <- app_assoc. split; [reflexivity|]. split; [exact U1|]. split; [|exact N].
      apply unmentioned_app. split; [exact U2|]. apply unmentioned_one, Ne.
    + exists s, p, T, []. split; [reflexivity|]. split; [exact U|]. split; [intros ? ? []|exact N].
Qed.
Definition run (T : list triple) : sgraph := fold_left (fun g t => match t with (s, p, o) => quad_graph s p o g end) T [].
Lemma run_snoc T s p o : run (T ++ [(s, p, o)]) = quad_graph s p o (run T).
Proof. unfold run. rewrite fold_left_app. reflexivity. Qed.
Definition described (s p : vid) (o : rval) (r : sres) : sres :=
  match rdf_property p with
  | Some PType => set_types (add type_eqb (rdf_type_of o) (sr_types r)) r
  | Some PFirst => set_first (add rval_eqb o (sr_first r)) r
  | Some PRest => set_rest (add rval_eqb o (sr_rest r)) r
  | None => set_props (add_at (RId p) o (sr_props r)) r
  end.
Definition mentioned (p : vid) (o : rval) (r : sres) : sres :=
  set_refs (if rval_eqb (RId p) o then usize_max else N.min (sr_refs r + 1) usize_max)
    match rdf_property p with Some PRest => set_reverse (add rval_eqb (RId p) (sr_reverse r)) r | _ => r end.
Lemma quad_graph_at s p o g k : s_at k (quad_graph s p o g) =
  let r := if rval_eqb k (RId s) then described s p o (s_at k g) else s_at k g in
  if rval_eqb k o then mentioned p o r else r.
Proof.
  unfold quad_graph, described, mentioned. rewrite s_at_mut. destruct (rdf_property p) as [[| |]|]; rewrite !s_at_mut; try reflexivity.
  destruct (rval_eqb k o) eqn:E; [|reflexivity]. destruct (rval_eqb k (RId s)), (s_at k g); reflexivity.
Qed.
Lemma facts_new k : facts [] k sr_new.
Proof.
  constructor; cbn.
  - split; [intros []|intros (? & ? & _ & [] & _)].
  - split; [intros (? & [] & _)|intros (? & ? & _ & _ & _ & [])].
  - split; [intros []|intros (? & _ & [])].
  - split; [intros []|intros (? & _ & [])].
  - intros ? [].
  - reflexivity.
  - split; [discriminate|]. intros (s & p & pre & post & E & _). destruct pre; discriminate.
  - split; [intros _ ? ? []|reflexivity].
  - lia.
  - congruence.
Qed.
Lemma in_snoc {A} (x y : A) l : In x (l ++ [y]) <-> In x l \/ x = y.
Proof. rewrite in_app_iff. cbn. split; [intros [H|[H|[]]]; auto|intros [H|H]; auto]. Qed.
Lemma facts_described T s p o r : facts T (RId s) r ->
  let r' := described s p o r in
  (forall t, In t (sr_types r') <-> exists s' o', RId s = RId s' /\ In (s', r_type, o') (T ++ [(s, p, o)]) /\ t = rdf_type_of o') /\
  (forall q x, pent (sr_props r') q x <-> exists s' q', RId s = RId s' /\ q = RId q' /\ plain q' /\ In (s', q', x) (T ++ [(s, p, o)])) /\
  (forall x, In x (sr_first r') <-> exists s', RId s = RId s' /\ In (s', r_first, x) (T ++ [(s, p, o)])) /\
  (forall x, In x (sr_rest r') <-> exists s', RId s = RId s' /\ In (s', r_rest, x) (T ++ [(s, p, o)])) /\
  sr_reverse r' = sr_reverse r /\ sr_values r' = sr_values r /\ sr_refs r' = sr_refs r /\ sr_graph r' = sr_graph r /\
  (sr_props r' <> [] -> exists p o, pent (sr_props r') p o) /\ sr_is_empty r' = false.
Proof.
  intros F. pose proof (rdf_property_spec p) as Hp. unfold described.
  assert (Tt : forall t, In t (sr_types r) <-> exists s' o', RId s = RId s' /\ In (s', r_type, o') T /\ t = rdf_type_of o') by (apply (f_types _ _ _ F)).
  assert (Tp := f_props _ _ _ F). assert (Tf := f_first _ _ _ F). assert (Tr := f_rest _ _ _ F).
  assert (Wt : p <> r_type -> forall t, In t (sr_types r) <-> exists s' o', RId s = RId s' /\ In (s', r_type, o') (T ++ [(s, p, o)]) /\ t = rdf_type_of o').
  { intros N t. rewrite Tt. split; intros (s' & o' & E & I & Et); exists s', o'; split; auto; split; auto; [apply in_snoc; auto|].
    apply in_snoc in I. destruct I as [I|I]; [exact I|]. congruence. }
  assert (Wp : ~ plain p -> forall q x, pent (sr_props r) q x <-> exists s' q', RId s = RId s' /\ q = RId q' /\ plain q' /\ In (s', q', x) (T ++ [(s, p, o)])).
  { intros N q x. rewrite Tp. split; intros (s' & q' & E & Eq & Pl & I); exists s', q'; repeat (split; [assumption|]); [apply in_snoc; auto|].
    apply in_snoc in I. destruct I as [I|I]; [exact I|]. congruence. }
  assert (Wf : p <> r_first -> forall x, In x (sr_first r) <-> exists s', RId s = RId s' /\ In (s', r_first, x) (T ++ [(s, p, o)])).
  { intros N x. rewrite Tf. split; intros (s' & E & I); exists s'; split; auto; [apply in_snoc; auto|].
    apply in_snoc in I. destruct I as [I|I]; [exact I|]. congruence. }
  assert (Wr : p <> r_rest -> forall x, In x (sr_rest r) <-> exists s', RId s = RId s' /\ In (s', r_rest, x) (T ++ [(s, p, o)])).
  { intros N x. rewrite Tr. split; intros (s' & E & I); exists s'; split; auto; [apply in_snoc; auto|].
    apply in_snoc in I. destruct I as [I|I]; [exact I|]. congruence. }
  assert (Nt : r_type <> r_first /\ r_type <> r_rest /\ r_first <> r_rest) by (repeat split; discriminate). destruct Nt as (N1 & N2 & N3).
  destruct r as [ts ps gr fs rs rv vs rf]. cbn [sr_types sr_props sr_graph sr_first sr_rest sr_reverse sr_values sr_refs set_types set_props set_first set_rest] in *.
  destruct (rdf_property p) as [[| |]|] eqn:Ep; [subst p|subst p|subst p|]; cbn [sr_types sr_props sr_graph sr_first sr_rest sr_reverse sr_values sr_refs set_types set_props set_first set_rest].
  - repeat split; try (intros; eapply (f_empty _ _ _ F); eassumption).
    + rewrite (add_in _ type_eqb_spec). intros [->|I].
      * exists s, o. split; [reflexivity|]. split; [apply in_snoc; auto|reflexivity].
      * apply Tt in I. destruct I as (s' & o' & E & I & Et). exists s', o'. split; [exact E|]. split; [apply in_snoc; auto|exact Et].
    + intros (s' & o' & E & I & Et). rewrite (add_in _ type_eqb_spec). apply in_snoc in I. destruct I as [I|I].
      * right. apply Tt. eauto.
      * left. congruence.
    + apply Wp. intros (P & _). apply P. reflexivity.
    + apply Wp. intros (P & _). apply P. reflexivity.
    + apply Wf. congruence.
    + apply Wf. congruence.
    + apply Wr. congruence.
    + apply Wr. congruence.
    + unfold sr_is_empty. cbn. pose proof (add_nil type_eqb (rdf_type_of o) ts). destruct (add type_eqb (rdf_type_of o) ts); [congruence|reflexivity].
  - repeat split; try (intros; eapply (f_empty _ _ _ F); eassumption).
    + apply Wt. congruence.
    + apply Wt. congruence.
    + apply Wp. intros (_ & P & _). apply P. reflexivity.
    + apply Wp. intros (_ & P & _). apply P. reflexivity.
    + rewrite (add_in _ rval_eqb_spec). intros [->|I].
      * exists s. split; [reflexivity|apply in_snoc; auto].
      * apply Tf in I. destruct I as (s' & E & I). exists s'. split; [exact E|apply in_snoc; auto].
    + intros (s' & E & I). rewrite (add_in _ rval_eqb_spec). apply in_snoc in I. destruct I as [I|I]; [right; apply Tf; eauto|left; congruence].
    + apply Wr. congruence.
    + apply Wr. congruence.
    + unfold sr_is_empty. cbn. pose proof (add_nil rval_eqb o fs). destruct (add rval_eqb o fs); [congruence|]. cbn. rewrite !andb_false_r. reflexivity.
  - repeat split; try (intros; eapply (f_empty _ _ _ F); eassumption).
    + apply Wt. congruence.
    + apply Wt. congruence.
    + apply Wp. intros (_ & _ & P). apply P. reflexivity.
    + apply Wp. intros (_ & _ & P). apply P. reflexivity.
    + apply Wf. congruence.
    + apply Wf. congruence.
    + rewrite (add_in _ rval_eqb_spec). intros [->|I].
      * exists s. split; [reflexivity|apply in_snoc; auto].
      * apply Tr in I. destruct I as (s' & E & I). exists s'. split; [exact E|apply in_snoc; auto].
    + intros (s' & E & I). rewrite (add_in _ rval_eqb_spec). apply in_snoc in I. destruct I as [I|I]; [right; apply Tr; eauto|left; congruence].
    + unfold sr_is_empty. cbn. pose proof (add_nil rval_eqb o rs). destruct (add rval_eqb o rs); [congruence|]. cbn. rewrite !andb_false_r. reflexivity.
  - destruct Hp as (P1 & P2 & P3). repeat split.
    + apply Wt. congruence.
    + apply Wt. congruence.
    + rewrite add_at_in. intros [I|[-> ->]].
      * apply Tp in I. destruct I as (s' & q' & E & Eq & Pl & I). exists s', q'. repeat (split; [assumption|]). apply in_snoc; auto.
      * exists s, p. repeat split; auto. apply in_snoc; auto.
    + intros (s' & q' & E & Eq & Pl & I). rewrite add_at_in. apply in_snoc in I. destruct I as [I|I]; [left; apply Tp; eauto 6|right; split; congruence].
    + apply Wf. congruence.
    + apply Wf. congruence.
    + apply Wr. congruence.
    + apply Wr. congruence.
    + intros _. exists (RId p), o. apply add_at_in. auto.
    + unfold sr_is_empty. cbn. pose proof (add_at_nil (RId p) o ps). destruct (add_at (RId p) o ps); [congruence|]. cbn. rewrite !andb_false_r. reflexivity.
Qed.
Lemma facts_run T k : facts T k (s_at k (run T)) /\ sr_graph (s_at k (run T)) = None.
Proof.
  induction T as [|[[s p] o] T IH] using rev_ind; [split; [apply facts_new|reflexivity]|].
  rewrite run_snoc, quad_graph_at. cbv zeta. destruct IH as [F G]. set (r := s_at k (run T)) in *.
  set (r1 := if rval_eqb k (RId s) then described s p o r else r).
  assert (H1 : (forall t, In t (sr_types r1) <-> exists s' o', k = RId s' /\ In (s', r_type, o') (T ++ [(s, p, o)]) /\ t = rdf_type_of o') /\
    (forall q x, pent (sr_props r1) q x <-> exists s' q', k = RId s' /\ q = RId q' /\ plain q' /\ In (s', q', x) (T ++ [(s, p, o)])) /\
    (forall x, In x (sr_first r1) <-> exists s', k = RId s' /\ In (s', r_first, x) (T ++ [(s, p, o)])) /\
    (forall x, In x (sr_rest r1) <-> exists s', k = RId s' /\ In (s', r_rest, x) (T ++ [(s, p, o)])) /\
    sr_reverse r1 = sr_reverse r /\ sr_values r1 = sr_values r /\ sr_refs r1 = sr_refs r /\ sr_graph r1 = sr_graph r /\
    (sr_props r1 <> [] -> exists p o, pent (sr_props r1) p o)).
  { unfold r1. destruct (rval_eqb_spec k (RId s)) as [->|N].
    - pose proof (facts_described T s p o r F) as D. cbv zeta in D. decompose [and] D. repeat (split; [assumption|]). assumption.
    - assert (X : forall s' q x, k = RId s' -> In (s', q, x) (T ++ [(s, p, o)]) <-> In (s', q, x) T).
      { intros s' q x ->. rewrite in_snoc. split; [intros [H|H]; [exact H|congruence]|auto]. }
      destruct F as [F1 F2 F3 F4 F5 F6 F7 F8 F9 F10]. repeat split; auto.
      + rewrite F1. intros (s' & o' & E & I & Et). exists s', o'. rewrite (X s' _ _ E). auto.
      + intros (s' & o' & E & I & Et). rewrite (X s' _ _ E) in I. apply F1. eauto.
      + rewrite F2. intros (s' & q' & E & Eq & Pl & I). exists s', q'. rewrite (X s' _ _ E). auto.
      + intros (s' & q' & E & Eq & Pl & I). rewrite (X s' _ _ E) in I. apply F2. eauto 6.
      + rewrite F3. intros (s' & E & I). exists s'. rewrite (X s' _ _ E). auto.
      + intros (s' & E & I). rewrite (X s' _ _ E) in I. apply F3. eauto.
      + rewrite F4. intros (s' & E & I). exists s'. rewrite (X s' _ _ E). auto.
      + intros (s' & E & I). rewrite (X s' _ _ E) in I. apply F4. eauto. }
  destruct H1 as (A1 & A2 & A3 & A4 & A5 & A6 & A7 & A8 & A9). destruct F as [F1 F2 F3 F4 F5 F6 F7 F8 F9 F10].
  destruct (rval_eqb_spec k o) as [->|N].
  - assert (Hrev : forall x, In x (sr_reverse (mentioned p o r1)) -> x = RId r_rest).
    { unfold mentioned. pose proof (rdf_property_spec p) as Hp. intros x.
      assert (E : forall m f, sr_reverse (set_refs m (set_reverse f r1)) = f /\ sr_reverse (set_refs m r1) = sr_reverse r1) by (intros; destruct r1; split; reflexivity).
      destruct (rdf_property p) as [[| |]|]; rewrite ?(proj1 (E _ _)), ?(proj2 (E _ [])), A5; auto.
      rewrite (add_in _ rval_eqb_spec). intros [->|I]; [congruence|auto]. }
    assert (E : sr_types (mentioned p o r1) = sr_types r1 /\ sr_props (mentioned p o r1) = sr_props r1 /\ sr_graph (mentioned p o r1) = sr_graph r1 /\
      sr_first (mentioned p o r1) = sr_first r1 /\ sr_rest (mentioned p o r1) = sr_rest r1 /\ sr_values (mentioned p o r1) = sr_values r1 /\
      sr_refs (mentioned p o r1) = (if rval_eqb (RId p) o then usize_max else N.min (sr_refs r1 + 1) usize_max))
      by (unfold mentioned; destruct r1, (rdf_property p) as [[| |]|]; repeat split). destruct E as (E1 & E2 & E3 & E4 & E5 & E6 & E7).
    split; [|congruence]. constructor; rewrite ?E1, ?E2, ?E4, ?E5, ?E6, ?E7; auto.
    + congruence.
    + rewrite once_snoc. rewrite A7. destruct (rval_eqb_spec (RId p) o) as [Ep|Np].
      * split; [discriminate|]. intros [[_ H]|(_ & _ & H)]; congruence.
      * rewrite <- F8. split.
        -- intros H. right. repeat split; auto. unfold usize_max in H. lia.
        -- intros [[_ H]|(_ & H & _)]; [congruence|]. unfold usize_max. lia.
    + rewrite unmentioned_app, unmentioned_one. split; [|intros [_ H]; congruence]. destruct (rval_eqb (RId p) o); [discriminate|]. unfold usize_max. lia.
    + destruct (rval_eqb (RId p) o); lia.
  - split; [|congruence]. constructor; auto.
    + rewrite A5. auto.
    + congruence.
    + rewrite once_snoc, A7, F7. split; [auto|]. intros [[H _]|(H & _)]; [exact H|congruence].
    + rewrite unmentioned_app, unmentioned_one, A7, F8. tauto.
    + rewrite A7. auto.
Qed.
Lemma run_nodup T : NoDup (map fst (run T)).
Proof.
  induction T as [|[[s p] o] T IH] using rev_ind; [constructor|]. rewrite run_snoc. unfold quad_graph. apply s_mut_nodup.
  destruct (rdf_property p) as [[| |]|]; repeat apply s_mut_nodup; exact IH.
Qed.

(** ** Emptiness *)
Lemma is_nil_spec {A} (l : list A) : is_nil l = true <-> l = []. Proof. destruct l; split; (reflexivity || discriminate). Qed.
Lemma nonempty_spec T k r : facts T k r -> sr_is_empty r = false <-> sr_graph r <> None \/ exists s p o, k = RId s /\ In (s, p, o) T.
Proof.
  intros F. split.
  - intros E. unfold sr_is_empty in E. destruct (sr_graph r) as [g|] eqn:Eg; [left; discriminate|]. right.
    destruct (sr_types r) as [|t ts] eqn:Et.
    + destruct (sr_props r) as [|e ps] eqn:Ep.
      * destruct (sr_first r) as [|x xs] eqn:Ef.
        -- destruct (sr_rest r) as [|y ys] eqn:Er; [discriminate|]. destruct (proj1 (f_rest _ _ _ F y)) as (s & Ek & I); [rewrite Er; left; reflexivity|]. eauto.
        -- destruct (proj1 (f_first _ _ _ F x)) as (s & Ek & I); [rewrite Ef; left; reflexivity|]. eauto.
      * destruct (f_empty _ _ _ F) as (p & o & H); [rewrite Ep; discriminate|]. apply (f_props _ _ _ F) in H. destruct H as (s & q & Ek & _ & _ & I). eauto.
    + destruct (proj1 (f_types _ _ _ F t)) as (s & o & Ek & I & _); [rewrite Et; left; reflexivity|]. eauto.
  - intros H. unfold sr_is_empty. destruct (sr_graph r) as [g|] eqn:Eg; [rewrite !andb_false_r; reflexivity|].
    destruct H as [H|(s & p & o & Ek & I)]; [congruence|]. pose proof (rdf_property_spec p) as Hp. destruct (rdf_property p) as [[| |]|].
    + subst p. assert (X : In (rdf_type_of o) (sr_types r)) by (apply (f_types _ _ _ F); eauto). destruct (sr_types r); [destruct X|reflexivity].
    + subst p. assert (X : In o (sr_first r)) by (apply (f_first _ _ _ F); eauto). destruct (sr_first r); [destruct X|]. rewrite !andb_false_r. reflexivity.
    + subst p. assert (X : In o (sr_rest r)) by (apply (f_rest _ _ _ F); eauto). destruct (sr_rest r); [destruct X|]. rewrite !andb_false_r. reflexivity.
    + assert (X : pent (sr_props r) (RId p) o) by (apply (f_props _ _ _ F); eauto 6). destruct (sr_props r); [destruct X as (? & [] & _)|]. cbn. rewrite !andb_false_r. reflexivity.
Qed.

(** ** The dataset *)
Definition graph_is (a b : option vid) : bool := match a, b with None, None => true | Some x, Some y => vid_eqb x y | _, _ => false end.
Lemma graph_is_spec a b : reflect (a = b) (graph_is a b).
Proof. destruct a as [a|], b as [b|]; cbn; try (constructor; congruence). destruct (vid_eqb_spec a b); constructor; congruence. Qed.
Definition triples_of (a : option vid) (qs : list quad) : list triple := map fst (filter (fun q => graph_is (snd q) a) qs).
Lemma triples_of_in a qs t : In t (triples_of a qs) <-> In (t, a) qs.
Proof.
  unfold triples_of. rewrite in_map_iff. split.
  - intros ([t' b] & <- & I). apply filter_In in I. destruct I as [I E]. cbn in E. destruct (graph_is_spec b a) as [->|]; [exact I|discriminate].
  - intros I. exists (t, a). split; [reflexivity|]. apply filter_In. split; [exact I|]. cbn. destruct (graph_is_spec a a); congruence.
Qed.
Fixpoint g_get (k : rval) (l : list (rval * sgraph)) : option sgraph :=
  match l with [] => None | (k', g) :: l' => if rval_eqb k k' then Some g else g_get k l' end.
Definition g_at (k : rval) l := match g_get k l with Some g => g | None => [] end.
Lemma g_get_mut k k' f l : g_get k (named_mut k' f l) = if rval_eqb k k' then Some (f (g_at k l)) else g_get k l.
Proof.
  unfold g_at. induction l as [|[k2 r] g IH]; cbn [named_mut g_get].
  - destruct (rval_eqb k k'); reflexivity.
  - destruct (rval_eqb_spec k' k2) as [<-|N]; cbn [g_get].
    + destruct (rval_eqb k k'); reflexivity.
    + destruct (rval_eqb_spec k k2) as [->|N2]; [|exact IH]. destruct (rval_eqb_spec k2 k'); [congruence|reflexivity].
Qed.
Lemma named_mut_keys k f g : map fst (named_mut k f g) = if existsb (rval_eqb k) (map fst g) then map fst g else map fst g ++ [k].
Proof.
  induction g as [|[k2 r] g IH]; cbn [named_mut map fst existsb]; [reflexivity|].
  destruct (rval_eqb_spec k k2) as [->|N]; cbn [map fst orb]; [reflexivity|]. rewrite IH. destruct (existsb (rval_eqb k) (map fst g)); reflexivity.
Qed.
Definition start : sstate := MkSs ([], []) None (MkTerms None None None).
Definition load (qs : list quad) : sstate := fold_left quad_step qs start.
Lemma load_snoc qs q : load (qs ++ [q]) = quad_step (load qs) q. Proof. unfold load. rewrite fold_left_app. reflexivity. Qed.
Lemma triples_snoc a qs s p o b : triples_of a (qs ++ [(s, p, o, b)]) = if graph_is b a then triples_of a qs ++ [(s, p, o)] else triples_of a qs.
Proof. unfold triples_of. rewrite filter_app, map_app. cbn [filter snd]. destruct (graph_is b a); cbn; rewrite ?app_nil_r; reflexivity. Qed.
Lemma load_default qs : snd (ss_data (load qs)) = run (triples_of None qs).
Proof.
  induction qs as [|[[[s p] o] b] qs IH] using rev_ind; [reflexivity|]. rewrite load_snoc, triples_snoc. cbn [quad_step ss_data].
  destruct b as [b|]; cbn [graph_mut graph_is snd]; [exact IH|]. rewrite run_snoc, IH. reflexivity.
Qed.
Lemma load_named qs a : g_get (RId a) (fst (ss_data (load qs))) = if existsb (fun q => graph_is (snd q) (Some a)) qs then Some (run (triples_of (Some a) qs)) else None.
Proof.
  induction qs as [|[[[s p] o] b] qs IH] using rev_ind; [reflexivity|]. rewrite load_snoc, triples_snoc, existsb_app. cbn [quad_step ss_data existsb snd].
  destruct b as [b|]; cbn [graph_mut graph_is fst].
  - rewrite g_get_mut. cbn [rval_eqb]. destruct (vid_eqb_spec a b) as [->|N].
    + destruct (vid_eqb_spec b b); [|congruence]. rewrite orb_true_r. cbn [orb]. rewrite run_snoc. f_equal. f_equal. unfold g_at. rewrite IH.
      destruct (existsb (fun q => graph_is (snd q) (Some b)) qs) eqn:E; [reflexivity|].
      assert (X : triples_of (Some b) qs = []); [|rewrite X; reflexivity]. unfold triples_of. clear IH. induction qs as [|q qs IHq]; [reflexivity|]. cbn in E. apply orb_false_iff in E. destruct E as [E1 E2].
      cbn [filter]. rewrite E1. apply IHq, E2.
    + destruct (vid_eqb_spec b a); [congruence|]. rewrite !orb_false_r. exact IH.
  - rewrite !orb_false_r. exact IH.
Qed.
Lemma load_named_keys qs : NoDup (map fst (fst (ss_data (load qs)))) /\ forall k, In k (map fst (fst (ss_data (load qs)))) -> exists a, k = RId a.
Proof.
  induction qs as [|[[[s p] o] b] qs [IH1 IH2]] using rev_ind; [split; [constructor|intros ? []]|]. rewrite load_snoc. cbn [quad_step ss_data].
  destruct b as [b|]; cbn [graph_mut fst]; [|auto]. rewrite named_mut_keys. destruct (existsb (rval_eqb (RId b)) (map fst (fst (ss_data (load qs))))) eqn:E; [auto|]. split.
  - apply NoDup_snoc; [exact IH1|]. intros I. rewrite (proj2 (existsb_exists _ _)) in E; [discriminate|]. exists (RId b). split; [exact I|apply rval_eqb_refl].
  - intros k I. apply in_snoc in I. destruct I as [I|I]; [auto|eauto].
Qed.
Lemma g_get_in k g l : NoDup (map fst l) -> In (k, g) l <-> g_get k l = Some g.
Proof.
  induction l as [|[k2 g2] l IH]; intros N; cbn [g_get]; [split; [intros []|discriminate]|]. inversion N as [|? ? N1 N2]; subst.
  destruct (rval_eqb_spec k k2) as [->|Nk].
  - split; [|intros [= ->]; left; reflexivity]. intros [E|I]; [congruence|]. exfalso. apply N1. apply (in_map fst) in I. exact I.
  - rewrite <- IH by exact N2. split; [intros [E|I]; [congruence|exact I]|right; assumption].
Qed.
Lemma fold_default_get l : NoDup (map fst l) -> forall g k,
  s_get k (fold_left (fun g e => s_mut (fst e) (set_graph (Some (snd e))) g) l g) =
  match g_get k l with Some g' => Some (set_graph (Some g') (s_at k g)) | None => s_get k g end.
Proof.
  induction l as [|[k2 g2] l IH]; intros N g k; [reflexivity|]. cbn [fold_left g_get fst snd]. inversion N as [|? ? N1 N2]; subst. rewrite IH by exact N2.
  rewrite s_get_mut, s_at_mut. destruct (rval_eqb_spec k k2) as [->|Nk]; [|reflexivity].
  destruct (g_get k2 l) as [g'|] eqn:E; [|reflexivity]. exfalso. apply N1. apply g_get_in in E; [|exact N2]. apply (in_map fst) in E. exact E.
Qed.
Lemma fold_default_nodup l : forall g, NoDup (map fst g) -> NoDup (map fst (fold_left (fun g e => s_mut (fst e) (set_graph (Some (snd e))) g) l g)).
Proof. induction l as [|e l IH]; intros g N; [exact N|]. cbn [fold_left]. apply IH, s_mut_nodup, N. Qed.
Lemma facts_set_graph T k r x : facts T k r -> facts T k (set_graph x r).
Proof. intros [F1 F2 F3 F4 F5 F6 F7 F8 F9 F10]. destruct r. constructor; assumption. Qed.

(** The graph that is rendered, and the graphs nested in it. *)
Definition all_of (qs : list quad) : sgraph := fold_into_default (ss_data (load qs)).
Definition names_graph (qs : list quad) (k : rval) : Prop := exists a t, k = RId a /\ In (t, Some a) qs.
Lemma all_of_nodup qs : NoDup (map fst (all_of qs)).
Proof. unfold all_of, fold_into_default. apply fold_default_nodup. rewrite load_default. apply run_nodup. Qed.
Lemma all_of_spec qs k r : s_get k (all_of qs) = Some r -> facts (triples_of None qs) k r /\
  forall g, sr_graph r = Some g <-> exists a, k = RId a /\ g = run (triples_of (Some a) qs) /\ names_graph qs k.
Proof.
  unfold all_of, fold_into_default. destruct (load_named_keys qs) as [N Hk]. rewrite fold_default_get by exact N. rewrite load_default.
  destruct (facts_run (triples_of None qs) k) as [F G].
  destruct (g_get k (fst (ss_data (load qs)))) as [g'|] eqn:E.
  - intros [= <-]. split; [apply facts_set_graph, F|]. assert (Ik : In k (map fst (fst (ss_data (load qs))))) by (apply (in_map fst _ (k, g')), g_get_in; assumption).
    destruct (Hk k Ik) as [a ->]. rewrite load_named in E. destruct (existsb (fun q => graph_is (snd q) (Some a)) qs) eqn:Ex; [|discriminate]. injection E as <-.
    apply existsb_exists in Ex. destruct Ex as ([t b] & I & Eb). cbn in Eb. destruct b as [b|]; [|discriminate]. cbn in Eb. destruct (vid_eqb_spec b a) as [->|]; [|discriminate].
    intros g. destruct (s_at (RId a) (run (triples_of None qs))). cbn. split.
    + intros [= <-]. exists a. split; [reflexivity|]. split; [reflexivity|]. exists a, t. auto.
    + intros (a' & [= <-] & -> & _). reflexivity.
  - intros Es. assert (Er : s_at k (run (triples_of None qs)) = r) by (unfold s_at; rewrite Es; reflexivity). rewrite Er in F, G. split; [exact F|].
    intros g. rewrite G. split; [discriminate|]. intros (a & -> & _ & (a' & t & [= <-] & I)). exfalso. rewrite load_named in E.
    destruct (existsb (fun q => graph_is (snd q) (Some a)) qs) eqn:Ex; [discriminate|]. rewrite (proj2 (existsb_exists _ _)) in Ex; [discriminate|]. exists (t, Some a). split; [exact I|]. cbn. destruct (vid_eqb_spec a a); congruence.
Qed.
Lemma all_of_has qs k : (exists s p o, k = RId s /\ In (s, p, o, None) qs) \/ names_graph qs k -> exists r, s_get k (all_of qs) = Some r.
Proof.
  unfold all_of, fold_into_default. destruct (load_named_keys qs) as [N Hk]. rewrite fold_default_get by exact N. rewrite load_default.
  destruct (g_get k (fst (ss_data (load qs)))) as [g'|] eqn:E; [eauto|]. intros [(s & p & o & -> & I)|(a & t & -> & I)].
  - destruct (facts_run (triples_of None qs) (RId s)) as [F G]. destruct (s_get (RId s) (run (triples_of None qs))) as [r|] eqn:Es; [eauto|].
    unfold s_at in F, G. rewrite Es in F, G. apply triples_of_in in I. pose proof (proj2 (nonempty_spec _ _ _ F) (or_intror (ex_intro _ s (ex_intro _ p (ex_intro _ o (conj eq_refl I)))))) as X. discriminate.
  - exfalso. rewrite load_named in E. match type of E with (if ?c then _ else _) = _ => assert (Ex : c = true) end.
    { apply existsb_exists. exists (t, Some a). split; [exact I|]. cbn. destruct (vid_eqb_spec a a); congruence. } rewrite Ex in E. discriminate.
Qed.
Lemma run_has T s p o : In (s, p, o) T -> exists r, s_get (RId s) (run T) = Some r.
Proof.
  intros I. destruct (facts_run T (RId s)) as [F G]. destruct (s_get (RId s) (run T)) as [r|] eqn:Es; [eauto|].
  unfold s_at in F, G. rewrite Es in F, G. pose proof (proj2 (nonempty_spec _ _ _ F) (or_intror (ex_intro _ s (ex_intro _ p (ex_intro _ o (conj eq_refl I)))))) as X. discriminate.
Qed.
Lemma run_spec T k r : s_get k (run T) = Some r -> facts T k r /\ sr_graph r = None.
Proof. intros E. destruct (facts_run T k) as [F G]. unfold s_at in F, G. rewrite E in F, G. auto. Qed.

(** ** No list is found *)
Lemma find_lists_none fuel g nil : (forall k r x, In (k, r) g -> In x (sr_reverse r) -> is_anonymous x = false) -> find_lists fuel g nil = Ok [].
Proof.
  intros H. unfold find_lists. destruct nil as [n|]; [|reflexivity]. destruct (s_get n g) as [r|] eqn:E; [|reflexivity].
  assert (F : forall x, In x (sr_reverse r) -> is_anonymous x = false) by (intros x; apply (H n), s_get_in, E).
  induction (sr_reverse r) as [|x l IH]; [reflexivity|]. cbn [fold_left bind]. rewrite (F x (or_introl eq_refl)). apply IH. intros y I. apply F. right. exact I.
Qed.
Lemma from_quads_eq io fin rnd fuel qs : from_quads io fin rnd fuel qs =
  (do l <- map_r (fun e => render_object io fin rnd (ss_terms (load qs)) fuel (all_of qs) (fst e) (snd e))
    (filter (fun e => negb (N.eqb (sr_refs (snd e)) 1) && negb (sr_is_empty (snd e))) (all_of qs)) ;
   Ok (collect_o fin rnd l)).
Proof.
  unfold from_quads. fold start. fold (load qs). fold (all_of qs). rewrite find_lists_none; [reflexivity|].
  intros k r x I Ix. apply s_in_get in I; [|apply all_of_nodup]. apply all_of_spec in I. destruct I as [F _]. rewrite (f_reverse _ _ _ F x Ix). reflexivity.
Qed.

(** ** The terms *)
Lemma load_rest qs : (exists s o a, In (s, r_rest, o, a) qs) -> tm_rest (ss_terms (load qs)) = Some (RId r_rest).
Proof.
  induction qs as [|[[[s p] o] b] qs IH] using rev_ind; [intros (? & ? & ? & [])|]. intros (s' & o' & a & I). rewrite load_snoc. cbn [quad_step ss_terms].
  pose proof (rdf_property_spec p) as Hp. unfold quad_terms. apply in_snoc in I.
  assert (X : p <> r_rest -> exists s o a, In (s, r_rest, o, a) qs) by (intros Np; destruct I as [I|I]; [eauto|congruence]).
  destruct (rdf_property p) as [[| |]|]; cbn [tm_rest].
  - apply IH, X. rewrite Hp. discriminate.
  - apply IH, X. rewrite Hp. discriminate.
  - rewrite Hp. reflexivity.
  - apply IH, X, Hp.
Qed.
Lemma rdf_type_none o : rdf_type_of o = None <-> o = RId (VIri (rdf "List")).
Proof.
  split; [|intros ->; reflexivity]. destruct o as [[u|b]|s t]; cbn [rdf_type_of]; try discriminate. destruct (streq_spec u (rdf "List")) as [->|]; [reflexivity|discriminate].
Qed.
Lemma load_list qs : (exists s o a, In (s, r_type, o, a) qs /\ rdf_type_of o = None) -> tm_list (ss_terms (load qs)) = Some (RId (VIri (rdf "List"))).
Proof.
  induction qs as [|[[[s p] o] b] qs IH] using rev_ind; [intros (? & ? & ? & [] & _)|]. intros (s' & o' & a & I & El). rewrite load_snoc. cbn [quad_step ss_terms].
  pose proof (rdf_property_spec p) as Hp. unfold quad_terms. apply in_snoc in I.
  assert (X : p <> r_type -> exists s o a, In (s, r_type, o, a) qs /\ rdf_type_of o = None) by (intros Np; destruct I as [I|I]; [eauto 6|congruence]).
  destruct (rdf_property p) as [[| |]|]; cbn [tm_list].
  - destruct (rdf_type_of o) eqn:Eo; [|apply rdf_type_none in Eo; congruence]. apply IH. destruct I as [I|I]; [eauto 6|]. congruence.
  - apply IH, X. rewrite Hp. discriminate.
  - apply IH, X. rewrite Hp. discriminate.
  - apply IH, X, Hp.
Qed.
(** The last quad about types or first items of lists is about first items. *)
Definition first_last (qs : list quad) : Prop :=
  (exists s o a, In (s, r_first, o, a) qs) -> exists pre s o a post, qs = pre ++ (s, r_first, o, a) :: post /\ forall s o a, ~ In (s, r_type, o, a) post.
Lemma load_first qs : first_last qs -> (exists s o a, In (s, r_first, o, a) qs) -> tm_first (ss_terms (load qs)) = Some (RId r_first).
Proof.
  intros H I. destruct (H I) as (pre & s & o & a & post & -> & N). clear H I. induction post as [|[[[s' p] o'] b] post IH] using rev_ind.
  - rewrite load_snoc. reflexivity.
  - rewrite app_comm_cons, app_assoc, load_snoc. cbn [quad_step ss_terms]. pose proof (rdf_property_spec p) as Hp. unfold quad_terms.
    assert (N' : forall s o a, ~ In (s, r_type, o, a) post) by (intros x y z I; apply (N x y z), in_snoc; auto).
    destruct (rdf_property p) as [[| |]|]; cbn [tm_first]; auto.
    + subst p. exfalso. apply (N s' o' b), in_snoc. auto.
    + subst p. reflexivity.
Qed.

(** What the document built from quads says. *)
From Verif Require Import Prelude Json Enums LangTag LangString Str Keyword Container ContextSyntax Ctx Object ObjectEq ObjectJson Relabel RelabelProofs FlattenOutput Rdf RdfProofs RdfSpec FromRdf FromRdfProofs.
From Coq Require Import NArith Lia Arith.

(** ** Enough fuel *)
Definition ev {A E} (f : nat -> result A E) (v : A) : Prop := exists N, forall n, N <= n -> f n = Ok v.
Lemma ev_unique {A E} (f : nat -> result A E) v w : ev f v -> ev f w -> v = w.
Proof. intros [N H] [M K]. specialize (H (N + M) (Nat.le_add_r _ _)). specialize (K (N + M) (Nat.le_add_l _ _)). congruence. Qed.
Lemma ev_S {A E} (f : nat -> result A E) v : ev (fun n => f (S n)) v -> ev f v.
Proof. intros [N H]. exists (S N). intros [|n] L; [lia|]. apply H. lia. Qed.
Lemma ev_const {A E} (v : A) : ev (fun _ => @Ok A E v) v. Proof. exists 0. reflexivity. Qed.
Lemma ev_map {X Y E} (f : nat -> X -> result Y E) l : (forall x, In x l -> exists y, ev (fun n => f n x) y) ->
  exists ys, ev (fun n => map_r (f n) l) ys /\ Forall2 (fun x y => ev (fun n => f n x) y) l ys.
Proof.
  induction l as [|x l IH]; intros H; [exists []; split; [apply ev_const|constructor]|].
  destruct (H x (or_introl eq_refl)) as [y Hy]. destruct IH as (ys & Hys & F); [intros z I; apply H; right; exact I|].
  exists (y :: ys). split; [|constructor; assumption]. destruct Hy as [N Hy], Hys as [M Hys]. exists (N + M). intros n L. cbn [map_r]. rewrite Hy by lia. cbn [bind]. rewrite Hys by lia. reflexivity.
Qed.
Lemma map_r_ok {X Y E} (f : X -> result Y E) l : (forall x, In x l -> exists y, f x = Ok y) ->
  exists ys, map_r f l = Ok ys /\ Forall2 (fun x y => f x = Ok y) l ys.
Proof.
  induction l as [|x l IH]; intros H; [exists []; split; [reflexivity|constructor]|].
  destruct (H x (or_introl eq_refl)) as [y Hy]. destruct IH as (ys & Hys & F); [intros z I; apply H; right; exact I|].
  exists (y :: ys). split; [|constructor; assumption]. cbn [map_r]. rewrite Hy. cbn [bind]. rewrite Hys. reflexivity.
Qed.
Lemma Forall2_l {A B} (R : A -> B -> Prop) l m x : Forall2 R l m -> In x l -> exists y, In y m /\ R x y.
Proof. induction 1 as [|a b l m H F IH]; intros I; [destruct I|]. destruct I as [<-|I]; [exists b; cbn; auto|]. destruct (IH I) as (y & Iy & Hy). exists y. cbn. auto. Qed.
Lemma Forall2_r {A B} (R : A -> B -> Prop) l m y : Forall2 R l m -> In y m -> exists x, In x l /\ R x y.
Proof. induction 1 as [|a b l m H F IH]; intros I; [destruct I|]. destruct I as [<-|I]; [exists a; cbn; auto|]. destruct (IH I) as (x & Ix & Hx). exists x. cbn. auto. Qed.

(** ** Properties *)
Definition pin (ps : list (id * list iobj)) (q : id) (y : iobj) : Prop := exists l, In (q, l) ps /\ In y l.
Lemma insert_all_in p o ps q y : pin (insert_all p [o] ps) q y <-> pin ps q y \/ (q = p /\ y = o).
Proof.
  unfold pin. induction ps as [|[k v] ps IH]; cbn [insert_all].
  - split; [intros (l & [[= <- <-]|[]] & [<-|[]]); auto|intros [(l & [] & _)|[-> ->]]; exists [o]; cbn; auto].
  - destruct (id_eqb_spec p k) as [<-|N].
    + split.
      * intros (l & [[= <- <-]|I] & Iy); [|left; exists l; cbn; auto]. apply in_app_or in Iy. destruct Iy as [Iy|[<-|[]]]; [|auto]. left. exists v. cbn. auto.
      * intros [(l & [[= <- <-]|I] & Iy)|[-> ->]]; [exists (v ++ [o]); cbn; rewrite in_app_iff; auto|exists l; cbn; auto|exists (v ++ [o]); cbn; rewrite in_app_iff; cbn; auto].
    + split.
      * intros (l & [E|I] & Iy); [left; exists l; cbn; auto|]. destruct (proj1 IH (ex_intro _ l (conj I Iy))) as [(l' & I' & J)|H]; [left; exists l'; cbn; auto|auto].
      * intros [(l & [E|I] & Iy)|H]; [exists l; cbn; auto| |].
        -- destruct (proj2 IH (or_introl (ex_intro _ l (conj I Iy)))) as (l' & I' & J). exists l'. cbn. auto.
        -- destruct (proj2 IH (or_intror H)) as (l' & I' & J). exists l'. cbn. auto.
Qed.

Section Render.
  Variables (io : ser_io) (fin rnd : list word -> N) (terms : rdf_terms).
  Notation render := (render_object io fin rnd terms).
  Definition roots (g : sgraph) : sgraph := filter (fun e => negb (N.eqb (sr_refs (snd e)) 1) && negb (sr_is_empty (snd e))) g.
  Definition or_ref (n : nat) (g : sgraph) (x : rval) : result iobj ser_err :=
    match s_get x g with
    | Some r => if N.eqb (sr_refs r) 1 && negb (sr_is_empty r) then render n g x r else render_reference io x
    | None => render_reference io x
    end.
  Definition ins (n : nat) (g : sgraph) (p : rval) (xs : list rval) (ps : list (id * list iobj)) : result (list (id * list iobj)) ser_err :=
    match id_of p with
    | None => Ok ps
    | Some p => fold_left (fun acc x => do ps <- acc ; do o <- or_ref n g x ; Ok (insert_all p [o] ps)) xs (Ok ps)
    end.
  Lemma render_S n g i r : render (S n) g i r =
    if sr_is_empty r then render_reference io i
    else
      match sr_values r with
      | Some vs => do l <- map_r (or_ref n g) vs ; Ok (None, OList l)
      | None =>
          do ts <- map_r (fun t => match t with None => unwrap (tm_list terms) | Some o => Ok o end) (sr_types r) ;
          let ts := flat_map (fun o => match id_of o with Some i => [i] | None => [] end) ts in
          do gr <- match sr_graph r with
                   | Some g' => do l <- map_r (fun e => render n g' (fst e) (snd e)) (roots g') ; Ok (Some (collect_o fin rnd l))
                   | None => Ok None
                   end ;
          do ps <- fold_left (fun acc e => do ps <- acc ; ins n g (fst e) (snd e) ps) (sr_props r) (Ok []) ;
          do ps <- (if is_nil (sr_first r) then Ok ps else do p <- unwrap (tm_first terms) ; ins n g p (sr_first r) ps) ;
          do ps <- (if is_nil (sr_rest r) then Ok ps else do p <- unwrap (tm_rest terms) ; ins n g p (sr_rest r) ps) ;
          Ok (None, ONode (MkNode (id_of i) (if is_nil ts then None else Some ts) gr None ps None))
      end.
  Proof. reflexivity. Qed.

  Definition rendered (g : sgraph) (x : rval) (y : iobj) : Prop := ev (fun n => or_ref n g x) y.
  Lemma ins_spec g p q xs : id_of p = Some q -> (forall x, In x xs -> exists y, rendered g x y) -> forall ps,
    exists ps', ev (fun n => ins n g p xs ps) ps' /\ forall q' y, pin ps' q' y <-> pin ps q' y \/ (q' = q /\ exists x, In x xs /\ rendered g x y).
  Proof.
    intros Eq. unfold ins. rewrite Eq. induction xs as [|x xs IH]; intros H ps.
    - exists ps. split; [apply ev_const|]. intros q' y. split; [auto|intros [K|(_ & x & [] & _)]; exact K].
    - destruct (H x (or_introl eq_refl)) as [o Ho]. destruct (IH (fun z I => H z (or_intror I)) (insert_all q [o] ps)) as (ps' & He & Hp). exists ps'. split.
      + destruct Ho as [N Ho], He as [M He]. exists (N + M). intros n L. cbn [fold_left bind]. rewrite Ho by lia. cbn [bind]. apply He. lia.
      + intros q' y. rewrite Hp, insert_all_in. split.
        * intros [[K|[-> ->]]|(-> & z & I & K)]; [auto|right; split; [reflexivity|]; exists x; cbn; auto|right; split; [reflexivity|]; exists z; cbn; auto].
        * intros [K|(-> & z & [<-|I] & K)]; [auto| |right; split; [reflexivity|]; eauto]. left. right. split; [reflexivity|]. eapply ev_unique; eassumption.
  Qed.
  Lemma ins_all_spec g es : (forall p xs x, In (p, xs) es -> In x xs -> exists y, rendered g x y) -> forall ps,
    exists ps', ev (fun n => fold_left (fun acc e => do ps <- acc ; ins n g (fst e) (snd e) ps) es (Ok ps)) ps' /\
      forall q' y, pin ps' q' y <-> pin ps q' y \/ (exists p xs x, In (p, xs) es /\ id_of p = Some q' /\ In x xs /\ rendered g x y).
  Proof.
    induction es as [|[p xs] es IH]; intros H ps.
    - exists ps. split; [apply ev_const|]. intros q' y. split; [auto|intros [K|(p & xs & x & [] & _)]; exact K].
    - assert (X : exists ps', ev (fun n => ins n g p xs ps) ps' /\ forall q' y, pin ps' q' y <-> pin ps q' y \/ (id_of p = Some q' /\ exists x, In x xs /\ rendered g x y)).
      { destruct (id_of p) as [q|] eqn:Eq.
        - destruct (ins_spec g p q xs Eq (fun x => H p xs x (or_introl eq_refl)) ps) as (ps' & E' & P'). exists ps'. split; [exact E'|]. intros q' y. rewrite P'.
          split; (intros [K|[K1 K2]]; [left; exact K|right; split; [congruence|exact K2]]).
        - exists ps. split; [unfold ins; rewrite Eq; apply ev_const|]. intros q' y. split; [auto|intros [K|[K _]]; [exact K|discriminate]]. }
      destruct X as (ps1 & [N1 E1] & P1).
      destruct (IH (fun p' xs' x I => H p' xs' x (or_intror I)) ps1) as (ps2 & [N2 E2] & P2). exists ps2. split.
      + exists (N1 + N2). intros n L. cbn [fold_left bind fst snd]. rewrite E1 by lia. apply E2. lia.
      + intros q' y. rewrite P2, P1. split.
        * intros [[K|(Ep & x & I & K)]|(p' & xs' & x & I & K)]; [auto| |]; right.
          -- exists p, xs, x. cbn. auto.
          -- exists p', xs', x. cbn. intuition.
        * intros [K|(p' & xs' & x & [E|I] & K1 & K2 & K3)]; [auto| |right; exists p', xs', x; auto]. injection E as <- <-. left. right. split; [exact K1|eauto].
  Qed.

  (** ** Reading the statements *)
  Variables (rio : rdf_io) (gen : nat -> vid) (dir : option rdf_direction) (generalized : bool).
  Notation conv := (conv rio gen dir generalized).
  Definition reads (q : ldquad) (Q : quad) : Prop := forall k, conv q k = ([Q], k).
  Definition tells (L : list ldquad) (S : quad -> Prop) : Prop :=
    (forall q, In q L -> exists Q, S Q /\ reads q Q) /\ (forall Q, S Q -> exists q, In q L /\ reads q Q).
  Lemma tells_conv L S : tells L S -> forall k Q, In Q (conv_all rio gen dir generalized L k) <-> S Q.
  Proof.
    intros [H1 H2] k Q. split.
    - intros I. destruct (conv_all_from _ _ _ _ _ _ _ I) as (q & k' & Iq & Ic). destruct (H1 q Iq) as (Q' & HS & R). rewrite R in Ic. destruct Ic as [<-|[]]. exact HS.
    - intros HS. destruct (H2 Q HS) as (q & Iq & R). destruct (conv_all_in rio gen dir generalized L k q Iq) as [k' Ic]. apply Ic. rewrite R. left. reflexivity.
  Qed.
  Definition allowed_b (p : vid) : Prop := generalized = true \/ is_blank p = false.
  Lemma valid_id_of v : valid (id_of_vid v) = Some v. Proof. destruct v; reflexivity. Qed.
  Lemma reads_type a s v : reads (MkLq (option_map id_of_vid a) (id_of_vid s) LType (LRef (id_of_vid v))) (s, r_type, RId v, a).
  Proof.
    intros k. unfold conv, RdfProofs.conv, spo. cbn [lq_graph lq_subject lq_prop lq_object ldobj_rdf id_rdf].
    destruct a as [a|]; cbn [option_map]; rewrite ?valid_id_of; cbn [is_blank]; rewrite andb_false_r, ?valid_id_of; reflexivity.
  Qed.
  Lemma reads_prop a s p o ob : allowed_b p -> (forall k, object_rdf rio gen dir k ob = (Some (o, None), k)) ->
    reads (MkLq (option_map id_of_vid a) (id_of_vid s) (LProp (id_of_vid p)) (LObj ob)) (s, p, o, a).
  Proof.
    intros Hp Ho k. unfold conv, RdfProofs.conv, spo. cbn [lq_graph lq_subject lq_prop lq_object ldobj_rdf].
    assert (E : negb generalized && is_blank p = false) by (destruct Hp as [->| ->]; [reflexivity|apply andb_false_r]).
    destruct a as [a|]; cbn [option_map]; rewrite ?valid_id_of, E, Ho; reflexivity.
  Qed.
  (** A literal that keeps its lexical form. *)
  Definition kept_literal (s : string) (t : ltype) : Prop :=
    exists v, literal_value io s t = Ok v /\ forall k, value_rdf rio gen dir k v = (Some (RLit s t), k).

  Section Graph.
    Variables (g : sgraph) (T : list triple) (gname : option vid) (inner : rval -> quad -> Prop).
    Hypothesis Hn : NoDup (map fst g).
    Hypothesis Hf : forall k r, s_get k g = Some r -> facts T k r.
    Hypothesis Hs : forall s p o, In (s, p, o) T -> exists r, s_get (RId s) g = Some r.
    Hypothesis Hi : forall k Q, inner k Q -> exists r, s_get k g = Some r.
    Hypothesis Hg : forall k r, s_get k g = Some r ->
      match sr_graph r with
      | None => forall Q, ~ inner k Q
      | Some g' => (exists a, k = RId a) /\ exists l, ev (fun n => map_r (fun e => render n g' (fst e) (snd e)) (roots g')) l /\
          tells (flat_map (fun y => ld_ob (id_of k) (snd y)) (collect_o fin rnd l)) (inner k)
      end.
    Hypothesis Ht1 : (exists s o, In (s, r_type, o) T /\ rdf_type_of o = None) -> tm_list terms = Some (RId (VIri (rdf "List"))).
    Hypothesis Ht2 : (exists s o, In (s, r_first, o) T) -> tm_first terms = Some (RId r_first).
    Hypothesis Ht3 : (exists s o, In (s, r_rest, o) T) -> tm_rest terms = Some (RId r_rest).
    Hypothesis Hl : forall s p x t, In (s, p, RLit x t) T -> p <> r_type -> kept_literal x t.
    Hypothesis Hp : forall s p o, In (s, p, o) T -> allowed_b p.

    Definition child (x y : rval) : Prop := exists s p, x = RId s /\ once_by T y s p /\ p <> r_type.
    Definition own (x : rval) (Q : quad) : Prop :=
      (exists s p o, x = RId s /\ In (s, p, o) T /\ (p = r_type -> exists v, o = RId v) /\ Q = (s, p, o, gname)) \/ inner x Q.
    Inductive says : rval -> quad -> Prop :=
    | SaOwn x Q : own x Q -> says x Q
    | SaChild x y Q : child x y -> says y Q -> says x Q.
    Lemma child_key x y : child x y -> exists r, s_get x g = Some r /\ sr_is_empty r = false.
    Proof.
      intros (s & p & -> & O & _). apply once_by_in in O. destruct (Hs _ _ _ O) as [r E]. exists r. split; [exact E|]. apply (nonempty_spec _ _ _ (Hf _ _ E)). right. eauto.
    Qed.
    Lemma says_key x Q : says x Q -> exists r, s_get x g = Some r /\ sr_is_empty r = false.
    Proof.
      intros [x' Q' [(s & p & o & -> & I & _)|H]|x' y Q' C _]; [| |eapply child_key, C].
      - destruct (Hs _ _ _ I) as [r E]. exists r. split; [exact E|]. apply (nonempty_spec _ _ _ (Hf _ _ E)). right. eauto.
      - destruct (Hi _ _ H) as [r E]. exists r. split; [exact E|]. apply (nonempty_spec _ _ _ (Hf _ _ E)). left. intros En. pose proof (Hg _ _ E) as K. rewrite En in K. eapply K, H.
    Qed.
    Lemma key_id x r : s_get x g = Some r -> sr_is_empty r = false -> exists s, x = RId s.
    Proof.
      intros E Ee. apply (nonempty_spec _ _ _ (Hf _ _ E)) in Ee. destruct Ee as [Ee|(s & p & o & -> & _)]; [|eauto].
      pose proof (Hg _ _ E) as K. destruct (sr_graph r); [apply K|congruence].
    Qed.

    (** *** Ancestors *)
    Inductive path : rval -> list rval -> Prop :=
    | PaRoot x : ~ once T x -> path x []
    | PaChild x y l : child y x -> path y l -> path x (y :: l).
    Lemma child_once x y : child x y -> once T y. Proof. intros (s & p & _ & O & _). exists s, p. exact O. Qed.
    Lemma child_unique x x' y : child x y -> child x' y -> x = x'.
    Proof. intros (s & p & -> & O & _) (s' & p' & -> & O' & _). apply once_by_in in O'. destruct (once_by_unique _ _ _ _ _ _ O O') as [-> _]. reflexivity. Qed.
    Lemma path_unique x l : path x l -> forall l', path x l' -> l = l'.
    Proof.
      induction 1 as [x N|x y l C P IH]; intros l' P'; inversion P' as [? N'|? y' l2 C' P2]; subst; [reflexivity| | |].
      - elim N. eapply child_once, C'.
      - elim N'. eapply child_once, C.
      - rewrite <- (child_unique _ _ _ C C') in P2. rewrite <- (child_unique _ _ _ C C'). f_equal. apply IH, P2.
    Qed.
    Lemma path_in x l y : path x l -> In y l -> exists l', path y l' /\ length l' < length l.
    Proof.
      induction 1 as [x N|x z l C P IH]; intros I; [destruct I|]. destruct I as [<-|I]; [exists l; cbn; auto|]. destruct (IH I) as (l' & P' & L). exists l'. cbn. auto.
    Qed.
    Lemma path_nodup x l : path x l -> NoDup (x :: l).
    Proof.
      induction 1 as [x N|x y l C P IH]; [repeat constructor; intros []|]. constructor; [|exact IH].
      intros I. assert (P2 : path x (y :: l)) by (constructor; assumption). destruct (path_in _ _ _ P2 I) as (l' & P' & L). rewrite (path_unique _ _ P2 _ P') in L. lia.
    Qed.
    Lemma path_keys x l : path x l -> incl l (map fst g).
    Proof.
      induction 1 as [x N|x y l C P IH]; [intros ? []|]. intros z [<-|I]; [|apply IH, I]. destruct (child_key _ _ C) as (r & E & _). apply s_get_in in E. apply (in_map fst) in E. exact E.
    Qed.

    (** *** Rendering *)
    Lemma types_spec s r : s_get (RId s) g = Some r -> exists ts,
      map_r (fun t => match t with None => unwrap (tm_list terms) | Some o => Ok o end) (sr_types r) = Ok ts /\
      forall v, In v ts <-> In (s, r_type, v) T.
    Proof.
      intros E. pose proof (Hf _ _ E) as F.
      assert (H : forall t, In t (sr_types r) -> exists v, match t with None => unwrap (tm_list terms) | Some o => Ok o end = Ok v /\ t = rdf_type_of v).
      { intros t I. pose proof I as I'. apply (f_types _ _ _ F) in I. destruct I as (s' & o & [= <-] & I & ->). exists o. split; [|reflexivity].
        destruct (rdf_type_of o) as [v|] eqn:Eo.
        - destruct o as [[u|b]|x t]; cbn in Eo; [destruct (streq u _); [discriminate|]| |]; injection Eo as <-; reflexivity.
        - rewrite Ht1 by eauto. apply rdf_type_none in Eo. rewrite Eo. reflexivity. }
      destruct (map_r_ok (fun t => match t with None => unwrap (tm_list terms) | Some o => Ok o end) (sr_types r)) as (ts & Em & F2).
      { intros t I. destruct (H t I) as (v & Ev & _). eauto. }
      exists ts. split; [exact Em|]. intros v.
      assert (Inj : forall a b, rdf_type_of a = rdf_type_of b -> a = b).
      { intros a b Eab. destruct (rdf_type_of a) eqn:Ea; symmetry in Eab.
        - destruct a as [[u|x]|x t], b as [[u'|x']|x' t']; cbn in Ea, Eab; repeat match goal with H : context [streq ?a ?b] |- _ => destruct (streq a b); try discriminate end; congruence.
        - apply rdf_type_none in Ea, Eab. congruence. }
      split.
      - intros I. destruct (Forall2_r _ _ _ _ F2 I) as (t & It & Et). destruct (H t It) as (v' & Ev & Et'). rewrite Ev in Et. injection Et as <-.
        apply (f_types _ _ _ F) in It. destruct It as (s' & o & [= <-] & Io & Eo). rewrite Eo in Et'. rewrite <- (Inj _ _ Et'). exact Io.
      - intros I. assert (It : In (rdf_type_of v) (sr_types r)) by (apply (f_types _ _ _ F); eauto). destruct (Forall2_l _ _ _ _ F2 It) as (v' & Iv & Ev).
        destruct (H _ It) as (v2 & E2 & Et). rewrite E2 in Ev. injection Ev as <-. rewrite (Inj _ _ Et). exact Iv.
    Qed.
    Lemma types_ids ts : exists tids, flat_map (fun o => match id_of o with Some i => [i] | None => [] end) ts = tids /\ forall i, In i tids <-> exists v, In (RId v) ts /\ i = id_of_vid v.
    Proof.
      eexists. split; [reflexivity|]. intros i. rewrite in_flat_map. split.
      - intros (o & Io & I). destruct o as [v|]; [|destruct I]. destruct I as [<-|[]]. eauto.
      - intros (v & I & ->). exists (RId v). split; [exact I|left; reflexivity].
    Qed.
    Lemma props_spec s r : s_get (RId s) g = Some r -> (forall p o, In (s, p, o) T -> p <> r_type -> exists y, rendered g o y) ->
      exists ps, ev (fun n =>
        do ps <- fold_left (fun acc e => do ps <- acc ; ins n g (fst e) (snd e) ps) (sr_props r) (Ok []) ;
        do ps <- (if is_nil (sr_first r) then Ok ps else do p <- unwrap (tm_first terms) ; ins n g p (sr_first r) ps) ;
        if is_nil (sr_rest r) then Ok ps else do p <- unwrap (tm_rest terms) ; ins n g p (sr_rest r) ps) ps /\
      forall q y, pin ps q y <-> exists p o, q = id_of_vid p /\ In (s, p, o) T /\ p <> r_type /\ rendered g o y.
    Proof.
      intros E H. pose proof (Hf _ _ E) as F.
      destruct (ins_all_spec g (sr_props r)) with (ps := @nil (id * list iobj)) as (ps1 & [N1 E1] & P1).
      { intros p xs x I Ix. destruct (proj1 (f_props _ _ _ F p x)) as (s' & q & [= <-] & -> & (Pl & _) & I2); [exists xs; auto|]. eapply H; eassumption. }
      assert (X1 : exists ps2, ev (fun n => if is_nil (sr_first r) then Ok ps1 else do p <- unwrap (tm_first terms) ; ins n g p (sr_first r) ps1) ps2 /\
        forall q y, pin ps2 q y <-> pin ps1 q y \/ (q = id_of_vid r_first /\ exists x, In (s, r_first, x) T /\ rendered g x y)).
      { destruct (sr_first r) as [|z zs] eqn:Ef.
        - exists ps1. split; [apply ev_const|]. intros q y. split; [auto|]. intros [K|(_ & x & I & _)]; [exact K|].
          assert (I2 : In x (sr_first r)) by (apply (f_first _ _ _ F); eauto). rewrite Ef in I2. destruct I2.
        - assert (Hz : forall x, In x (z :: zs) <-> In (s, r_first, x) T) by (intros x; rewrite <- Ef, (f_first _ _ _ F); split; [intros (s' & [= <-] & I); exact I|eauto]).
          cbn [is_nil]. rewrite Ht2 by (exists s, z; apply Hz; left; reflexivity). cbn [unwrap bind].
          destruct (ins_spec g (RId r_first) (id_of_vid r_first) (z :: zs) eq_refl) with (ps := ps1) as (ps2 & E2 & P2).
          { intros x Ix. apply (H r_first); [apply Hz, Ix|discriminate]. }
          exists ps2. split; [exact E2|]. intros q y. rewrite P2. split; (intros [K|(Eq & x & I & K)]; [auto|right; split; [exact Eq|]; exists x; split; [apply Hz, I|exact K]]). }
      destruct X1 as (ps2 & [N2 E2] & P2).
      assert (X1 : exists ps3, ev (fun n => if is_nil (sr_rest r) then Ok ps2 else do p <- unwrap (tm_rest terms) ; ins n g p (sr_rest r) ps2) ps3 /\
        forall q y, pin ps3 q y <-> pin ps2 q y \/ (q = id_of_vid r_rest /\ exists x, In (s, r_rest, x) T /\ rendered g x y)).
      { destruct (sr_rest r) as [|z zs] eqn:Ef.
        - exists ps2. split; [apply ev_const|]. intros q y. split; [auto|]. intros [K|(_ & x & I & _)]; [exact K|].
          assert (I2 : In x (sr_rest r)) by (apply (f_rest _ _ _ F); eauto). rewrite Ef in I2. destruct I2.
        - assert (Hz : forall x, In x (z :: zs) <-> In (s, r_rest, x) T) by (intros x; rewrite <- Ef, (f_rest _ _ _ F); split; [intros (s' & [= <-] & I); exact I|eauto]).
          cbn [is_nil]. rewrite Ht3 by (exists s, z; apply Hz; left; reflexivity). cbn [unwrap bind].
          destruct (ins_spec g (RId r_rest) (id_of_vid r_rest) (z :: zs) eq_refl) with (ps := ps2) as (ps3 & E3 & P3).
          { intros x Ix. apply (H r_rest); [apply Hz, Ix|discriminate]. }
          exists ps3. split; [exact E3|]. intros q y. rewrite P3. split; (intros [K|(Eq & x & I & K)]; [auto|right; split; [exact Eq|]; exists x; split; [apply Hz, I|exact K]]). }
      destruct X1 as (ps3 & [N3 E3] & P3). exists ps3. split.
      - exists (N1 + N2 + N3). intros n L. rewrite E1 by lia. cbn [bind]. rewrite E2 by lia. cbn [bind]. apply E3. lia.
      - intros q y. rewrite P3, P2, P1. split.
        + intros [[[(l & [] & _)|(p & xs & x & I & Ep & Ix & R)]|(-> & x & I & R)]|(-> & x & I & R)].
          * destruct (proj1 (f_props _ _ _ F p x)) as (s' & q' & [= <-] & -> & (Pl & _) & I2); [exists xs; auto|]. injection Ep as <-. exists q', x. auto.
          * exists r_first, x. repeat split; try assumption. discriminate.
          * exists r_rest, x. repeat split; try assumption. discriminate.
        + intros (p & o & -> & I & Np & R). pose proof (rdf_property_spec p) as Hpr. destruct (rdf_property p) as [[| |]|].
          * congruence.
          * subst p. left. right. eauto.
          * subst p. right. eauto.
          * left. left. right. destruct (proj2 (f_props _ _ _ F (RId p) o)) as (xs & I1 & I2); [eauto 7|]. exists (RId p), xs, o. repeat split; assumption.
    Qed.
    Lemma objects_spec s r p o : s_get (RId s) g = Some r -> In (s, p, o) T -> p <> r_type ->
      (forall r', child (RId s) o -> s_get o g = Some r' -> sr_is_empty r' = false -> exists n, ev (fun k => render k g o r') (None, ONode n) /\ n_id n = id_of o /\
        tells (ld_n (option_map id_of_vid gname) n) (says o)) ->
      exists y, rendered g o y /\ (forall k, object_rdf rio gen dir k (snd y) = (Some (o, None), k)) /\
        tells (ld_ob (option_map id_of_vid gname) (snd y)) (fun Q => child (RId s) o /\ says o Q).
    Proof.
      intros E I Np H.
      assert (Ref : (forall r', s_get o g = Some r' -> sr_refs r' = 1%N -> sr_is_empty r' = false -> False) -> (forall n, or_ref n g o = render_reference io o) ->
        exists y, rendered g o y /\ (forall k, object_rdf rio gen dir k (snd y) = (Some (o, None), k)) /\
        tells (ld_ob (option_map id_of_vid gname) (snd y)) (fun Q => child (RId s) o /\ says o Q)).
      { intros No Er.
        assert (Nt : forall Q, ~ (child (RId s) o /\ says o Q)).
        { intros Q [C Sy]. destruct (says_key _ _ Sy) as (r' & E' & Ee). apply (No r' E'); [|exact Ee]. apply (f_refs _ _ _ (Hf _ _ E')). eapply child_once, C. }
        assert (Nt' : tells [] (fun Q => child (RId s) o /\ says o Q)) by (split; [intros ? []|intros Q K; elim (Nt Q K)]).
        destruct o as [v|x t].
        - exists (None, ONode (node_new (Some (id_of_vid v)))). split; [|split; [|exact Nt']].
          + exists 0. intros n _. apply Er.
          + intros k. cbn. rewrite valid_id_of. reflexivity.
        - destruct (Hl _ _ _ _ I Np) as (v & Ev & Rv). exists (None, OVal v). split; [|split; [|exact Nt']].
          + exists 0. intros n _. rewrite Er. cbn. rewrite Ev. reflexivity.
          + intros k. cbn. rewrite Rv. reflexivity. }
      unfold or_ref in Ref. destruct (s_get o g) as [r'|] eqn:Eo; [|apply Ref; [discriminate|reflexivity]].
      destruct (N.eqb_spec (sr_refs r') 1) as [E1|N1]; [|apply Ref; [intros ? [= <-]; congruence|reflexivity]].
      destruct (sr_is_empty r') eqn:Ee; [apply Ref; [intros ? [= <-]; congruence|reflexivity]|]. clear Ref.
      assert (C : child (RId s) o).
      { apply (f_refs _ _ _ (Hf _ _ Eo)) in E1. destruct E1 as (s' & p' & O). destruct (once_by_unique _ _ _ _ _ _ O I) as [-> ->]. exists s', p'. auto. }
      destruct (H r' C eq_refl Ee) as (n & En & Ei & Tn). exists (None, ONode n). split; [|split].
      - unfold rendered, or_ref. rewrite Eo, E1, Ee. exact En.
      - intros k. cbn. rewrite Ei. destruct (key_id _ _ Eo Ee) as [v ->]. cbn. rewrite valid_id_of. reflexivity.
      - destruct Tn as [T1 T2]. split.
        + intros q Iq. destruct (T1 q Iq) as (Q & K & R). exists Q. auto.
        + intros Q [_ K]. apply T2, K.
    Qed.
    Lemma render_spec m : forall x l r, path x l -> s_get x g = Some r -> sr_is_empty r = false -> length (map fst g) < m + length l ->
      exists n, ev (fun k => render k g x r) (None, ONode n) /\ n_id n = id_of x /\ tells (ld_n (option_map id_of_vid gname) n) (says x).
    Proof.
      induction m as [|m IH]; intros x l r P E Ee L.
      { exfalso. assert (X : length (x :: l) <= length (map fst g)); [|cbn in X, L; lia]. apply NoDup_incl_length; [apply path_nodup, P|].
        intros z [<-|I]; [apply s_get_in in E; apply (in_map fst) in E; exact E|eapply path_keys; eassumption]. }
      destruct (key_id _ _ E Ee) as [s ->].
      assert (Ho : forall p o, In (s, p, o) T -> p <> r_type -> exists y, rendered g o y /\ (forall k, object_rdf rio gen dir k (snd y) = (Some (o, None), k)) /\
        tells (ld_ob (option_map id_of_vid gname) (snd y)) (fun Q => child (RId s) o /\ says o Q)).
      { intros p o I Np. eapply objects_spec; [exact E|exact I|exact Np|]. intros r' C E' Ee'. apply (IH o (RId s :: l)); [constructor; assumption|exact E'|exact Ee'|cbn; lia]. }
      destruct (types_spec s r E) as (ts & Ets & Hts). destruct (types_ids ts) as (tids & Etid & Htid).
      destruct (props_spec s r E) as (ps & [N1 Eps] & Hps).
      { intros p o I Np. destruct (Ho p o I Np) as (y & R & _). eauto. }
      assert (X : exists gr, ev (fun n => match sr_graph r with
                   | Some g' => do l <- map_r (fun e => render n g' (fst e) (snd e)) (roots g') ; Ok (Some (collect_o fin rnd l))
                   | None => Ok None
                   end) gr /\ tells (flat_map (fun y => ld_ob (Some (id_of_vid s)) (snd y)) (opt_list gr)) (inner (RId s))).
      { pose proof (Hg _ _ E) as K. destruct (sr_graph r) as [g'|].
        - destruct K as (_ & l' & [M Em] & Tl). exists (Some (collect_o fin rnd l')). split; [|exact Tl]. exists M. intros n Ln. rewrite Em by lia. reflexivity.
        - exists None. split; [apply ev_const|]. split; [intros ? []|intros Q K2; elim (K Q K2)]. }
      destruct X as (gr & [N2 Egr] & [Tg1 Tg2]).
      exists (MkNode (Some (id_of_vid s)) (if is_nil tids then None else Some tids) gr None ps None). split; [|split; [reflexivity|]].
      - apply ev_S. exists (N1 + N2). intros n Ln. rewrite render_S, Ee, (f_values _ _ _ (Hf _ _ E)), Ets. cbn [bind]. rewrite Etid. rewrite Egr by lia. cbn [bind].
        specialize (Eps n). destruct (fold_left _ _ _) as [ps1|]; [|discriminate Eps; lia]. cbn [bind] in *.
        destruct (if is_nil (sr_first r) then _ else _) as [ps2|]; [|discriminate Eps; lia]. cbn [bind] in *. rewrite Eps by lia. reflexivity.
      - assert (Hty : forall i, In i (opt_list (if is_nil tids then None else Some tids)) <-> In i tids) by (intros i; destruct tids; reflexivity).
        split.
        + intros q Iq. apply ld_n_in in Iq. destruct Iq as (i & [= <-] & Iq). cbn [n_id n_types n_props n_graph n_included n_reverse opt_list] in Iq.
          destruct Iq as [Iq|[Iq|[Iq|[Iq|Iq]]]].
          * inversion Iq as [i0 t Ei It Eq|i0 p l0 y Ei Ip Iy Eq|i0 p l0 y j Ei Ip Iy Ej Eq]; subst q; cbn in Ei; [| |destruct Ip]; injection Ei as <-.
            -- cbn [n_types] in It. apply Hty, Htid in It. destruct It as (v & It & ->). apply Hts in It. exists (s, r_type, RId v, gname). split; [|apply reads_type].
               constructor. left. exists s, r_type, (RId v). repeat split; eauto.
            -- cbn [n_props] in Ip. destruct (proj1 (Hps p y)) as (p' & o & -> & I & Np & R); [exists l0; auto|]. destruct (Ho p' o I Np) as (y' & R' & Ob & _).
               rewrite (ev_unique _ _ _ R R'). exists (s, p', o, gname). split; [|apply reads_prop; [eapply Hp, I|exact Ob]].
               constructor. left. exists s, p', o. repeat split; auto. congruence.
          * destruct Iq as ([p l0] & y & Ip & Iy & Iq). destruct (proj1 (Hps p y)) as (p' & o & -> & I & Np & R); [exists l0; auto|]. destruct (Ho p' o I Np) as (y' & R' & _ & [To _]).
            rewrite (ev_unique _ _ _ R R') in Iq. destruct (To q Iq) as (Q & [C K] & Rq). exists Q. split; [eapply SaChild; eassumption|exact Rq].
          * destruct Iq as (? & ? & [] & _).
          * destruct Iq as (? & [] & _).
          * destruct Iq as (y & Iy & Iq). destruct (Tg1 q) as (Q & K & R); [apply in_flat_map; eauto|]. exists Q. split; [constructor; right; exact K|exact R].
        + intros Q K. inversion K as [x' Q' O Ex EQ|x' y Q' C K2 Ex EQ]; subst x' Q'; [destruct O as [(s' & p & o & [= <-] & I & Hty' & ->)|K2]|].
          * destruct (vid_eqb_spec p r_type) as [->|Np].
            -- destruct (Hty' eq_refl) as [v ->]. eexists. split; [|apply reads_type]. apply ld_n_in. exists (id_of_vid s). split; [reflexivity|]. left. apply LoType; [reflexivity|].
               cbn [n_types]. apply Hty, Htid. exists v. split; [apply Hts, I|reflexivity].
            -- destruct (Ho p o I Np) as (y & R & Ob & _). destruct (proj2 (Hps (id_of_vid p) y)) as (l0 & Ip & Iy); [exists p, o; auto|].
               eexists. split; [|apply (reads_prop gname s p o (snd y)); [eapply Hp, I|exact Ob]]. apply ld_n_in. exists (id_of_vid s). split; [reflexivity|]. left. eapply LoProp; [reflexivity|exact Ip|exact Iy].
          * destruct (Tg2 Q K2) as (q & Iq & R). apply in_flat_map in Iq. destruct Iq as (y & Iy & Iq). exists q. split; [|exact R].
            apply ld_n_in. exists (id_of_vid s). split; [reflexivity|]. right. right. right. right. exists y. auto.
          * pose proof C as (s' & p & [= <-] & O & Np). pose proof (once_by_in _ _ _ _ O) as I. destruct (Ho p y I Np) as (z & R & _ & [_ To]). destruct (To Q (conj C K2)) as (q & Iq & Rq).
            exists q. split; [|exact Rq]. destruct (proj2 (Hps (id_of_vid p) z)) as (l0 & Ip & Iy); [exists p, y; auto|].
            apply ld_n_in. exists (id_of_vid s). split; [reflexivity|]. right. left. exists (id_of_vid p, l0), z. auto.
    Qed.

    (** *** The whole graph *)
    Inductive anchored : rval -> Prop :=
    | AnRoot x : ~ once T x -> anchored x
    | AnChild x y : child x y -> anchored x -> anchored y.
    Lemma anchored_says x : anchored x -> forall Q, says x Q -> exists z, ~ once T z /\ says z Q.
    Proof. induction 1 as [x N|x y C A IH]; intros Q K; [eauto|]. apply IH. eapply SaChild; eassumption. Qed.
    Lemma says_anchored x Q : says x Q -> anchored x -> exists y, anchored y /\ own y Q.
    Proof. induction 1 as [x Q O|x y Q C K IH]; intros A; [eauto|]. apply IH. eapply AnChild; eassumption. Qed.
    Theorem graph_spec : exists l, ev (fun k => map_r (fun e => render k g (fst e) (snd e)) (roots g)) l /\
      tells (flat_map (fun y => ld_ob (option_map id_of_vid gname) (snd y)) (collect_o fin rnd l)) (fun Q => exists x, anchored x /\ own x Q).
    Proof.
      assert (H : forall e, In e (roots g) -> exists n, ev (fun k => render k g (fst e) (snd e)) (None, ONode n) /\ n_id n = id_of (fst e) /\ tells (ld_n (option_map id_of_vid gname) n) (says (fst e))
        /\ (exists v, fst e = RId v) /\ ~ once T (fst e)).
      { intros [x r] I. apply filter_In in I. destruct I as [I B]. cbn [fst snd] in *. apply andb_true_iff in B. destruct B as [B1 B2].
        apply s_in_get in I; [|exact Hn]. rewrite negb_true_iff in B1, B2. destruct (N.eqb_spec (sr_refs r) 1) as [|N1]; [discriminate|].
        assert (No : ~ once T x) by (intros O; apply N1, (f_refs _ _ _ (Hf _ _ I)), O).
        destruct (render_spec (S (length (map fst g))) x [] r (PaRoot _ No) I B2) as (n & En & Ei & Tn); [cbn; lia|]. exists n. repeat split; try assumption; try apply Tn. eapply key_id; eassumption. }
      destruct (ev_map (fun k e => render k g (fst e) (snd e)) (roots g)) as (l & El & F).
      { intros e I. destruct (H e I) as (n & En & _). eauto. }
      exists l. split; [exact El|].
      assert (Fn : Forall2 (fun e y => exists n, y = (None, ONode n) /\ n_id n = id_of (fst e) /\ tells (ld_n (option_map id_of_vid gname) n) (says (fst e)) /\ (exists v, fst e = RId v) /\ ~ once T (fst e)) (roots g) l).
      { clear El. revert H. induction F as [|e y es ys R F IH]; intros H; constructor.
        - destruct (H e (or_introl eq_refl)) as (n & En & K). exists n. split; [eapply ev_unique; eassumption|exact K].
        - apply IH. intros e' I. apply H. right. exact I. }
      clear F.
      assert (Ec : collect_o fin rnd l = l).
      { assert (D : distinct (fun x y => oid x = oid y) l).
        { apply distinct_ids. assert (Nr : NoDup (map fst (roots g))).
          { unfold roots. clear - Hn. induction g as [|[k r] g' IH]; [constructor|]. inversion Hn as [|? ? N1 N2]; subst. cbn [filter]. destruct (negb _ && negb _); [|apply IH, N2]. cbn. constructor; [|apply IH, N2].
            intros I. apply N1. apply in_map_iff in I. destruct I as (e & <- & I). apply filter_In in I. apply in_map, I. }
          clear El H. induction Fn as [|e y es ys (n & -> & Ei & _ & (v & Ev) & _) F IH]; [constructor|]. cbn in Nr. inversion Nr as [|? ? N1 N2]; subst. cbn. constructor; [|apply IH, N2].
          intros I. apply in_map_iff in I. destruct I as (y & Ey & Iy). destruct (Forall2_r _ _ _ _ F Iy) as (e' & Ie & n' & -> & Ei' & _ & (v' & Ev') & _). apply N1.
          cbn in Ey. rewrite Ei, Ei', Ev, Ev' in Ey. cbn in Ey. assert (v = v') by (destruct v, v'; cbn in Ey; congruence). subst v'. rewrite Ev, <- Ev'. apply in_map, Ie. }
        apply (set_collect _ _ (fun x y => oid x = oid y) l []); [|exact D].
        intros x y Ix Iy Q. cbn [app] in Ix, Iy. destruct (Forall2_r _ _ _ _ Fn Ix) as (e & _ & n & -> & _), (Forall2_r _ _ _ _ Fn Iy) as (e' & _ & n' & -> & _).
        unfold iobj_eqb in Q. apply andb_true_iff in Q. destruct Q as [_ Q]. unfold oid. cbn [snd obj_eqb] in *. eapply node_eqb_id, Q. }
      rewrite Ec. split.
      - intros q Iq. apply in_flat_map in Iq. destruct Iq as (y & Iy & Iq). destruct (Forall2_r _ _ _ _ Fn Iy) as (e & _ & n & -> & _ & [T1 _] & _ & No). destruct (T1 q Iq) as (Q & K & R).
        exists Q. split; [|exact R]. eapply says_anchored; [exact K|apply AnRoot, No].
      - intros Q (x & A & O). destruct (anchored_says x A Q (SaOwn _ _ O)) as (z & No & K). destruct (says_key _ _ K) as (r & E & Ee).
        assert (I : In (z, r) (roots g)).
        { apply filter_In. split; [apply s_get_in, E|]. cbn [fst snd]. rewrite Ee, andb_true_r, negb_true_iff. destruct (N.eqb_spec (sr_refs r) 1) as [E1|]; [|reflexivity]. elim No. apply (f_refs _ _ _ (Hf _ _ E)), E1. }
        destruct (Forall2_l _ _ _ _ Fn I) as (y & Iy & n & -> & _ & [_ T2] & _). destruct (T2 Q K) as (q & Iq & R). exists q. split; [|exact R]. apply in_flat_map. eexists. split; [exact Iy|exact Iq].
    Qed.
  End Graph.
End Render.

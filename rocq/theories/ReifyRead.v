(** The conversion of an active context into its syntax is read as the same context
    ([Reify.v]). *)
From Verif Require Import Prelude Str Keyword Enums LangTag Container Stack ContextSyntax Ctx Process ObjectJson Cycles CompactIriRead Sound Reify.

Section Read.
Variables (io : iops) (ld : loader) (n : nat) (c : actx) (m : merged) (url : option string) (o : popts).
Hypothesis LW : id_laws io.
Hypothesis HM : forall s, get_normal c s = None -> m_get m (KKey s) = None.
Hypothesis H11 : is_10 o = false.
Notation r := (engine io ld (S n)).

(** The terms marked as being defined. *)
Definition calm (dm : dmap) : Prop := forall s, get_normal c s = None -> dget (KKey s) dm <> Some true.
Definition grown (d d' : dmap) : Prop := forall q, dget q d' = dget q d \/ exists s, q = KKey s /\ get_normal c s = None /\ dget q d' = Some false.
Definition below (a : actx) : Prop := forall s, get_normal c s = None -> get_normal a s = None.

Lemma grown_refl d : grown d d. Proof. intros q. left. reflexivity. Qed.
Lemma grown_trans a b d : grown a b -> grown b d -> grown a d.
Proof.
  intros G1 G2 q. destruct (G2 q) as [E|(s & -> & N & E)]; [|right; exists s; auto].
  destruct (G1 q) as [E'|(s & -> & N & E')]; [left; congruence|]. right. exists s. rewrite E. auto.
Qed.
Lemma grown_calm a b : grown a b -> calm a -> calm b.
Proof. intros G C s N E. destruct (G (KKey s)) as [X|(s' & _ & _ & X)]; [|congruence]. apply (C s N). congruence. Qed.
Lemma kk_refl k : kk_eqb k k = true.
Proof. destruct k; cbn; [apply streq_refl|]. destruct (keyword_eqb_spec k k); congruence. Qed.
Lemma kk_spec a b : kk_eqb a b = true -> a = b.
Proof.
  destruct a, b; cbn; try discriminate; intros E.
  - destruct (streq_spec s s0); [congruence|discriminate].
  - destruct (keyword_eqb_spec k k0); [congruence|discriminate].
Qed.

Lemma define_free st s rs b p o' : get_normal c s = None -> s <> "" -> calm (snd st) ->
  exists dm', e_define r st m (KKey s) rs b p o' = Ok (fst st, dm') /\ grown (snd st) dm'.
Proof.
  intros N NE C. cbn [engine e_define]. unfold define_body. destruct st as [a dm]. cbn [fst snd] in *.
  destruct (dget (KKey s) dm) as [[|]|] eqn:E.
  - exfalso. exact (C s N E).
  - exists dm. split; [reflexivity|apply grown_refl].
  - destruct (streq_spec s "") as [->|_]; [contradiction|]. rewrite (HM s N). eexists. split; [reflexivity|].
    intros q. unfold dend. cbn [dget]. destruct (kk_eqb q (KKey s)) eqn:K; [|left; reflexivity].
    apply kk_spec in K. subst q. right. exists s. auto.
Qed.

Lemma real_colon i : real_id io i -> colon_inside (id_str i) = true /\ is_keyword_like (id_str i) = false.
Proof.
  destruct i as [s|s|s]; cbn [real_id id_str]; intros R; [|  |destruct R].
  - split; [apply (iri_colon io LW), R|]. destruct (il_scheme io (dl_iri io LW) s R) as (p & x & -> & _). apply colon_not_keyword.
  - split; [apply (blank_colon io LW), R|]. destruct (dl_blank io LW s R) as (x & ->). apply (colon_not_keyword "_" x).
Qed.
Lemma real_key i : real_id io i -> kw_of_str (id_str i) = None /\ id_str i <> "".
Proof.
  intros R. destruct (real_colon i R) as [C K]. split; [apply not_keyword, K|]. intros E. rewrite E in C. discriminate C.
Qed.

Lemma read_free st i dr vo rs o' : real_id io i -> free_text c (id_str i) -> below (fst st) -> calm (snd st) ->
  exists dm', expand_iri_with io r st (NSome (XStr (id_str i))) dr vo m rs o' = Ok ((fst st, dm'), Some (TmId i)) /\ grown (snd st) dm'.
Proof.
  intros R [F1 F2] B C. destruct (real_colon i R) as [CI K]. destruct (real_key i R) as [KS NE].
  unfold expand_iri_with. rewrite K. unfold kk_of_str. rewrite KS.
  destruct (define_free st (id_str i) rs None false (with_no_override o') F1 NE C) as (d1 & E1 & G1). rewrite E1. cbn [bind fst snd].
  unfold expand_defined, get_value. assert (NT : streq (id_str i) "@type" = false).
  { destruct (streq_spec (id_str i) "@type") as [E|_]; [|reflexivity]. rewrite E in KS. discriminate KS. }
  rewrite NT, (B _ F1). cbn [option_map]. rewrite CI.
  destruct i as [s|s|s]; cbn [id_str real_id] in *; [| |destruct R].
  2:{ rewrite R. exists d1. auto. }
  rewrite (il_blank io (dl_iri io LW) s R).
  assert (NU : streq s "_:" = false).
  { destruct (streq_spec s "_:") as [->|_]; [|reflexivity]. destruct (il_scheme io (dl_iri io LW) _ R) as (p & x & E & N1 & N3 & N2 & N4).
    pose proof (colon_split p x N3) as Y. rewrite <- E in Y. cbn in Y. injection Y as Y _. rewrite <- Y in N2. discriminate. }
  rewrite NU. unfold compact_iri_of. destruct (split_once ":" s) as [[p x]|] eqn:SP.
  - destruct (negb (streq p "_") && negb (starts_with "//" x) && iri_ref_ok io s) eqn:CO.
    + apply Bool.andb_true_iff in CO as [CO _]. apply Bool.andb_true_iff in CO as [_ CO].
      destruct (split_once_sound _ _ _ _ SP) as [ES NP].
      assert (NN : get_normal c p = None).
      { destruct (F2 p x) as [(y & ->)|N]; [exact ES|exact NP| |exact N]. exfalso.
        assert (X : starts_with "//" ("//" +++ y) = true) by (apply starts_with_spec; exists y; reflexivity). rewrite X in CO. discriminate CO. }
      assert (PE : p <> "").
      { intros ->. rewrite ES in CI. discriminate CI. }
      destruct (define_free (fst st, d1) p rs None false (with_no_override o') NN PE) as (d2 & E2 & G2); [eapply grown_calm; eassumption|].
      rewrite E2. cbn [bind fst snd] in *. unfold expand_prefixed. rewrite (B _ NN). unfold expand_absolute. rewrite R. cbn [bind].
      exists d2. split; [reflexivity|]. eapply grown_trans; eassumption.
    + unfold expand_absolute. rewrite R. exists d1. auto.
  - unfold expand_absolute. rewrite R. exists d1. auto.
Qed.

Lemma simple_free a s dr vo : iri_ok io s = true -> free_text c s -> below a ->
  expand_iri_simple io a (NSome (xp_of_str s)) dr vo = Ok (Some (TmId (IIri s))).
Proof.
  intros R [F1 F2] B. destruct (real_colon (IIri s) R) as [CI K]. destruct (real_key (IIri s) R) as [KS NE]. cbn [id_str] in *.
  unfold xp_of_str. rewrite KS. unfold expand_iri_simple. rewrite K. unfold expand_defined, get_value.
  assert (NT : streq s "@type" = false).
  { destruct (streq_spec s "@type") as [E|_]; [|reflexivity]. rewrite E in KS. discriminate KS. }
  rewrite NT, (B _ F1). cbn [option_map]. rewrite CI, (il_blank io (dl_iri io LW) s R).
  assert (NU : streq s "_:" = false).
  { destruct (streq_spec s "_:") as [->|_]; [|reflexivity]. destruct (il_scheme io (dl_iri io LW) _ R) as (p & x & E & N1 & N3 & N2 & N4).
    pose proof (colon_split p x N3) as Y. rewrite <- E in Y. cbn in Y. injection Y as Y _. rewrite <- Y in N2. discriminate. }
  rewrite NU. unfold compact_iri_of. destruct (split_once ":" s) as [[p x]|] eqn:SP.
  - destruct (negb (streq p "_") && negb (starts_with "//" x) && iri_ref_ok io s) eqn:CO.
    + apply Bool.andb_true_iff in CO as [CO _]. apply Bool.andb_true_iff in CO as [_ CO].
      destruct (split_once_sound _ _ _ _ SP) as [ES NP].
      assert (NN : get_normal c p = None).
      { destruct (F2 p x) as [(y & ->)|N]; [exact ES|exact NP| |exact N]. exfalso.
        assert (X : starts_with "//" ("//" +++ y) = true) by (apply starts_with_spec; exists y; reflexivity). rewrite X in CO. discriminate CO. }
      unfold expand_prefixed. rewrite (B _ NN). unfold expand_absolute. rewrite R. reflexivity.
    + unfold expand_absolute. rewrite R. reflexivity.
  - unfold expand_absolute. rewrite R. reflexivity.
Qed.

Variables (k : string) (d : ndef).
Definition scoped_ok (l : lcontext) : Prop := forall a, exists x, e_process r a l ps_new url (with_override o) = Ok x.
Hypothesis HC : convertible io scoped_ok url c k d.

(** The [@type] member. *)
Lemma read_type i rev st x : below (fst st) -> calm (snd st) -> nd_typ x = None ->
  exists dm', define_type io r st m ps_new o (def_members d i rev) x = Ok ((fst st, dm'), nd_set_typ x (nd_typ d)) /\ grown (snd st) dm'.
Proof.
  intros B C T. destruct st as [a dm]. cbn [fst snd] in *. unfold define_type. cbn [te_type def_members]. destruct (nd_typ d) as [t|] eqn:E; cbn [option_map].
  2:{ exists dm. split; [|apply grown_refl]. destruct x; cbn in T; subst; reflexivity. }
  rewrite H11. cbn [andb]. destruct t as [| | | |s]; cbn [ty_into_syntax xp_of_ttype tkw_kw].
  1-4: exists dm; split; [reflexivity|apply grown_refl].
  destruct (cv_typ _ _ _ _ _ _ HC s E) as [I F].
  destruct (read_free (a, dm) (IIri s) false (Some (po_vocab o)) ps_new o I F B C) as (dm' & X & G). cbn [id_str fst snd] in X.
  rewrite X. cbn [bind ty_of_term]. exists dm'. auto.
Qed.

(** What follows the IRI mapping. *)
Definition with_rest (x : ndef) (pf : bool) : ndef :=
  MkNDef (nd_value x) pf (nd_protected x) (nd_reverse x) (nd_base_url d) (nd_context d) (nd_container d) (nd_direction d) (nd_index d)
    (nd_language d) (nd_nest d) (nd_typ d).
Lemma read_rest i rev st x pf : below (fst st) -> nd_typ x = nd_typ d -> nd_base_url x = None -> nd_context x = None ->
  nd_container x = CNone -> nd_direction x = None -> nd_index x = None -> nd_language x = None -> nd_nest x = None ->
  nd_prefix x = false -> pf = nd_prefix d -> (nd_prefix d = true -> exists j, nd_value x = Some (TmId j)) ->
  define_rest io r st k ps_new url o (def_members d i rev) None x = Ok (set_normal (fst st) k (Some (with_rest x pf)), snd st).
Proof.
  intros B T BU CX CN DR IX LG NS PF -> HP. unfold define_rest.
  assert (E1 : define_container o (def_members d i rev) x = Ok (nd_set_container x (nd_container d))).
  { unfold define_container. cbn [te_container def_members]. rewrite H11. cbn [andb].
    pose proof (c_syntax_roundtrip (nd_container d)) as RT. pose proof (cv_type_map _ _ _ _ _ _ HC) as TM.
    destruct (c_into_syntax (nd_container d)) as [s|] eqn:S; cbn [option_map].
    - rewrite RT. destruct (c_contains (nd_container d) CKType) eqn:CT; [|reflexivity].
      cbn [nd_set_container nd_typ]. rewrite T. unfold c_contains in CT. apply existsb_exists in CT as (y & Y1 & Y2).
      destruct (ckind_eqb_spec CKType y) as [<-|]; [|discriminate]. destruct (TM Y1) as [-> | ->]; reflexivity.
    - cbn in RT. injection RT as <-. destruct x; cbn in CN; subst; reflexivity. }
  rewrite E1. cbn [bind].
  assert (E2 : define_index io (fst st) o (def_members d i rev) (nd_set_container x (nd_container d)) = Ok (nd_set_index (nd_set_container x (nd_container d)) (nd_index d))).
  { unfold define_index. cbn [te_index def_members]. destruct (nd_index d) as [s|] eqn:S.
    - destruct (cv_index _ _ _ _ _ _ HC s S) as (I & F & CI). cbn [nd_set_container nd_container]. rewrite H11.
      assert (CC : c_contains (nd_container d) CKIndex = true).
      { unfold c_contains. apply existsb_exists. exists CKIndex. split; [exact CI|reflexivity]. }
      rewrite CC. cbn [negb orb]. rewrite (simple_free (fst st) s false (Some (po_vocab o)) I F B). reflexivity.
    - destruct x; cbn in IX; subst; reflexivity. }
  rewrite E2. cbn [bind].
  assert (E3 : forall y, nd_context y = None -> nd_base_url y = None -> define_context r (fst st) ps_new url o (def_members d i rev) y =
    Ok (MkNDef (nd_value y) (nd_prefix y) (nd_protected y) (nd_reverse y) (nd_base_url d) (nd_context d) (nd_container y) (nd_direction y) (nd_index y) (nd_language y) (nd_nest y) (nd_typ y))).
  { intros y Y1 Y2. unfold define_context. cbn [te_context def_members]. destruct (nd_context d) as [l|] eqn:S.
    - destruct (cv_context _ _ _ _ _ _ HC l S) as [OK BB]. rewrite H11. destruct (OK (fst st)) as (z & Z). rewrite Z. rewrite BB. reflexivity.
    - rewrite (cv_no_context _ _ _ _ _ _ HC S). destruct y. cbn in *. subst. reflexivity. }
  rewrite E3; [|exact CX|exact BU]. cbn [bind]. destruct x as [xv xp xt xr xb xc xn xd xi xl xs xy]. cbn in T, BU, CX, CN, DR, IX, LG, NS, PF, HP. subst.
  cbn [nd_set_container nd_set_index nd_value nd_prefix nd_protected nd_reverse nd_base_url nd_context nd_container nd_direction nd_index nd_language nd_nest nd_typ].
  assert (E4 : define_language (def_members d i rev) (MkNDef xv false xt xr (nd_base_url d) (nd_context d) (nd_container d) None (nd_index d) None None (nd_typ d)) =
    MkNDef xv false xt xr (nd_base_url d) (nd_context d) (nd_container d) (nd_direction d) (nd_index d) (nd_language d) None (nd_typ d)).
  { pose proof (cv_language _ _ _ _ _ _ HC) as L. unfold define_language. cbn [te_type te_language te_direction def_members]. destruct (nd_typ d) as [t|]; cbn [option_map].
    - destruct L as [-> ->]; [discriminate|]. reflexivity.
    - destruct (nd_language d), (nd_direction d); reflexivity. }
  rewrite E4. clear E1 E2 E3 E4.
  unfold define_nest, define_prefix, define_propagate, define_protect. cbn [te_nest te_prefix te_propagate def_members]. rewrite H11.
  destruct (cv_key _ _ _ _ _ _ HC) as (_ & K1 & K2).
  destruct (nd_nest d) as [ns|] eqn:NST; cbn [bind]; (destruct (nd_prefix d) eqn:P; cbn [flag]; [rewrite K1, K2; cbn [orb]; destruct (HP eq_refl) as (j & ->); cbn [nd_set_nest nd_value term_is_kw bind]|]).
  all: cbn [bind]; destruct (po_override o); cbn [bind]; unfold with_rest; cbn; rewrite ?P, ?NST; reflexivity.
Qed.

Definition start_def : ndef := nd_set_protected ndef_default (nd_protected d).
Lemma read_protected i rev : define_protected false o (def_members d i rev) = Ok start_def.
Proof. unfold define_protected, start_def. cbn [te_protected def_members]. rewrite H11. destruct (nd_protected d); reflexivity. Qed.

Lemma rest_bare i rev : rest_none (def_members d i rev) = true -> bare d /\ rev = None.
Proof.
  unfold rest_none, bare. cbn [te_type te_context te_reverse te_index te_language te_direction te_container te_nest te_prefix te_propagate te_protected def_members].
  destruct (nd_typ d), (nd_context d), rev, (nd_index d), (nd_language d), (nd_direction d), (nd_nest d), (nd_prefix d), (nd_protected d);
    cbn [option_map none_b flag andb]; try discriminate; rewrite ?Bool.andb_false_r; try discriminate.
  destruct (nd_container d); cbn; try discriminate. intros _. repeat split; reflexivity.
Qed.
Lemma kw_reads q : kw_of_str (kw_str q) = Some q. Proof. destruct q; reflexivity. Qed.
Lemma expanded_simplify i rev : (i = None -> rev <> None) ->
  (forall s, i = Some (NSome (TIdTerm s)) -> kw_of_str s = None) ->
  expanded_of (simplify (def_members d i rev)) = def_members d i rev /\
  simple_term (simplify (def_members d i rev)) = rest_none (def_members d i rev).
Proof.
  intros HI HK. unfold simplify, texp_is_null, texp_is_simple. change (te_id (def_members d i rev)) with i.
  destruct (rest_none (def_members d i rev)) eqn:RN.
  - destruct (rest_bare i rev RN) as [(B1 & B2 & B3 & B4 & B5 & B6 & B7 & B8 & B9) ->].
    destruct i as [[|[q|s]]|]; [| | |exfalso; apply (HI eq_refl); reflexivity].
    all: split; [|reflexivity]; unfold def_members; rewrite B1, B2, B3, B4, B5, B6, B7, B8, B9; cbn [expanded_of tid_str]; unfold tid_of_str; rewrite ?kw_reads, ?(HK s eq_refl); reflexivity.
  - assert (E : (if match i with Some (NSome _) => false | _ => false end then NNull
                 else if match i with Some (NSome _) => false | _ => false end then match i with Some (NSome i0) => NSome (TSimple (tid_str i0)) | _ => NNull end
                 else NSome (TExpanded (def_members d i rev))) = NSome (TExpanded (def_members d i rev))).
    { destruct i as [[|]|]; reflexivity. }
    destruct i as [[|]|]; split; reflexivity.
Qed.
Lemma open_delim t : is_gen_delim_or_blank t = ends_open t. Proof. destruct t as [|[| |]|]; reflexivity. Qed.

Lemma below_none a : below a -> below (set_normal a k None).
Proof. intros B s N. rewrite get_normal_set. destruct (streq k s); [reflexivity|apply B, N]. Qed.

(** The whole definition. *)
Lemma read_normal st v : below (fst st) -> calm (snd st) -> get_normal (fst st) k = None -> def_into_syntax d = Some v ->
  exists x dm', define_normal io r st m k ps_new url false o v = Ok ((set_normal (set_normal (fst st) k None) k (Some x), dm'), true) /\
    same_term d x /\ grown (snd st) dm'.
Proof.
  intros B C G DV. destruct st as [a dm]. cbn [fst snd] in *. unfold define_normal. cbn [fst snd]. rewrite G.
  pose proof (below_none a B) as B'. set (a' := set_normal a k None) in *.
  destruct (cv_key _ _ _ _ _ _ HC) as (K0 & K1 & K2).
  unfold def_into_syntax in DV.
  destruct (nd_value d) as [t|] eqn:V.
  - destruct (nd_reverse d) eqn:RV.
    + destruct (cv_reverse _ _ _ _ _ _ HC RV) as ((i & VI) & CN & CX & IX & LG & DI & NS & PF).
      rewrite VI in V. injection V as <-. cbn [term_into_key] in DV. injection DV as <-.
      destruct (cv_id _ _ _ _ _ _ HC i VI) as [RI FI].
      destruct (expanded_simplify None (Some (id_str i))) as [XE _]; [discriminate|discriminate|]. rewrite XE. rewrite read_protected. cbn [bind].
      destruct (read_type None (Some (id_str i)) (a', dm) start_def B' C eq_refl) as (d1 & E1 & G1). rewrite E1. cbn [bind fst snd] in *.
      change (te_reverse (def_members d None (Some (id_str i)))) with (Some (id_str i)). cbv iota beta. unfold define_reverse.
      change (te_id (def_members d None (Some (id_str i)))) with (@None (nullable tid)). change (te_nest (def_members d None (Some (id_str i)))) with (nd_nest d). rewrite NS. cbn [orb].
      destruct (real_colon i RI) as [_ KL]. rewrite KL. unfold xp_of_str. rewrite (proj1 (real_key i RI)).
      destruct (read_free (a', d1) i false (Some (po_vocab o)) ps_new o RI FI B') as (d2 & E2 & G2); [eapply grown_calm; eassumption|]. rewrite E2. cbn [bind fst snd] in *.
      assert (VL : id_valid i = true) by (destruct i; [reflexivity|reflexivity|destruct RI]). rewrite VL.
      assert (RC : reverse_container (def_members d None (Some (id_str i))) (nd_set_value (nd_set_typ start_def (nd_typ d)) (Some (TmId i))) =
        Ok (nd_set_container (nd_set_value (nd_set_typ start_def (nd_typ d)) (Some (TmId i))) (nd_container d))).
      { unfold reverse_container. cbn [te_container def_members]. destruct CN as [<-|[<-|[<-|[]]]]; reflexivity. }
      rewrite RC. cbn [bind]. eexists _, d2. split; [reflexivity|]. split.
      * pose proof (cv_no_context _ _ _ _ _ _ HC CX) as BU.
        constructor; unfold mapping, nd_set_reverse, nd_set_container, nd_set_value, nd_set_typ, start_def, nd_set_protected, ndef_default;
          cbn [nd_value nd_prefix nd_protected nd_reverse nd_base_url nd_context nd_container nd_direction nd_index nd_language nd_nest nd_typ]; rewrite ?VI; congruence.
      * eapply grown_trans; eassumption.
    + cbn [option_map] in DV. injection DV as <-.
      assert (HK : forall s, Some (term_into_id t) = Some (NSome (TIdTerm s)) -> kw_of_str s = None).
      { intros s E. destruct t as [|i|q]; cbn [term_into_id] in E; try discriminate. injection E as <-. apply real_key. apply (cv_id _ _ _ _ _ _ HC i V). }
      destruct (expanded_simplify (Some (term_into_id t)) None) as [XE XS]; [discriminate|exact HK|]. rewrite XE, XS. clear XE XS. rewrite read_protected. cbn [bind].
      destruct (read_type (Some (term_into_id t)) None (a', dm) start_def B' C eq_refl) as (d1 & E1 & G1). rewrite E1. cbn [bind fst snd] in *.
      change (te_reverse (def_members d (Some (term_into_id t)) None)) with (@None string). cbv iota beta.
      assert (CM : exists d2 pf, grown dm d2 /\ define_mapping io r (a', d1) m k ps_new o (rest_none (def_members d (Some (term_into_id t)) None)) (def_members d (Some (term_into_id t)) None)
          (nd_set_typ start_def (nd_typ d)) = Ok ((a', d2), Some (nd_set_prefix (nd_set_value (nd_set_typ start_def (nd_typ d)) (match t with TmNull => None | _ => Some t end)) pf)) /\ pf = false).
      { unfold define_mapping. change (te_id (def_members d (Some (term_into_id t)) None)) with (Some (term_into_id t)). cbv iota beta.
        destruct t as [|i|q]; cbn [term_into_id id_differs].
        - exists d1, false. split; [exact G1|]. split; reflexivity.
        - destruct (cv_id _ _ _ _ _ _ HC i V) as [RI FI]. destruct (streq_spec (id_str i) k) as [EK|_].
          { exfalso. destruct (real_colon i RI) as [CI _]. rewrite EK in CI. unfold colon_inside in CI.
            destruct (find_char ":" k) as [j|] eqn:FC; [|discriminate]. unfold contains_char in K1. rewrite FC in K1. discriminate K1. }
          cbn [negb]. unfold define_id. cbn [tid_str xp_of_tid]. destruct (real_colon i RI) as [_ KL]. rewrite KL. cbn [andb].
          destruct (read_free (a', d1) i false (Some (po_vocab o)) ps_new o RI FI B') as (d2 & E2 & G2); [eapply grown_calm; eassumption|]. rewrite E2. cbn [bind fst snd] in *.
          assert (VL : id_valid i = true) by (destruct i; [reflexivity|reflexivity|destruct RI]). rewrite VL. cbn [negb].
          assert (CB : contains_between_boundaries k ":" = false).
          { unfold contains_between_boundaries. destruct (find_char ":" k) eqn:FC; [|reflexivity]. unfold contains_char in K1. rewrite FC in K1. discriminate K1. }
          rewrite CB, K1, K2. cbn [orb negb andb bind].
          destruct (rest_none (def_members d (Some (NSome (TIdTerm (id_str i)))) None)) eqn:RN; cbn [bind].
          + destruct (rest_bare _ _ RN) as [BA _]. exists d2, (is_gen_delim_or_blank (TmId i)). split; [eapply grown_trans; eassumption|]. split; [reflexivity|].
            rewrite open_delim. pose proof (cv_open _ _ _ _ _ _ HC BA RV) as X. unfold mapping in X. rewrite V in X. exact X.
          + exists d2, false. split; [eapply grown_trans; eassumption|]. split; reflexivity.
        - unfold define_id. cbn [tid_str xp_of_tid]. rewrite Bool.andb_false_r. cbn [expand_iri_with bind fst snd].
          assert (NC : match q with KContext => true | _ => false end = false).
          { destruct q; try reflexivity. exfalso. apply (cv_kw _ _ _ _ _ _ HC). exact V. }
          replace (match Some (TmKw q) with Some (TmKw KContext) => true | _ => false end) with false by (destruct q; first [reflexivity|discriminate NC]).
          assert (CB : contains_between_boundaries k ":" = false).
          { unfold contains_between_boundaries. destruct (find_char ":" k) eqn:FC; [|reflexivity]. unfold contains_char in K1. rewrite FC in K1. discriminate K1. }
          rewrite CB, K1, K2. cbn [orb negb andb bind].
          exists d1, false. split; [exact G1|]. destruct (rest_none _); split; reflexivity. }
      destruct CM as (d2 & pf & G2 & E2 & ->). rewrite E2. cbn [bind].
      rewrite (read_rest _ _ (a', d2) _ (nd_prefix d)); try reflexivity; [|exact B'|].
      2:{ intros P. destruct (cv_prefix _ _ _ _ _ _ HC P) as (j & VJ). rewrite VJ in V. injection V as <-. exists j. reflexivity. }
      cbn [bind fst snd]. eexists _, d2. split; [reflexivity|]. split; [|exact G2].
      constructor; unfold mapping, with_rest; cbn [nd_set_prefix nd_set_value nd_set_typ start_def nd_set_protected ndef_default nd_value nd_prefix nd_protected nd_reverse nd_base_url nd_context nd_container nd_direction nd_index nd_language nd_nest nd_typ];
        rewrite ?V, ?RV; try reflexivity. destruct t; reflexivity.
  - assert (MN : mapping d = TmNull) by (unfold mapping; rewrite V; reflexivity).
    destruct (cv_null _ _ _ _ _ _ HC MN V) as [RV BA]. destruct BA as (B1 & B2 & B3 & B4 & B5 & B6 & B7 & B8 & B9). rewrite RV in DV. cbn [option_map] in DV. injection DV as <-.
    assert (SN : simplify (def_members d None None) = NNull).
    { unfold def_members. rewrite B1, B2, B3, B4, B5, B6, B7, B8, B9. reflexivity. }
    rewrite SN. cbn [expanded_of simple_term]. unfold define_protected, define_type, define_mapping, define_rest, define_container, define_index, define_context, define_language, define_nest, define_prefix, define_propagate, define_protect.
    cbn [te_protected te_type te_reverse te_id id_differs te_container te_index te_context te_language te_direction te_nest te_prefix te_propagate bind fst snd].
    destruct (po_override o); cbn [bind fst snd]; eexists _, dm; (split; [reflexivity|]); (split; [|apply grown_refl]);
      pose proof (cv_no_context _ _ _ _ _ _ HC B3) as BU;
      constructor; unfold mapping, nd_set_protected, ndef_default; cbn [nd_value nd_prefix nd_protected nd_reverse nd_base_url nd_context nd_container nd_direction nd_index nd_language nd_nest nd_typ]; rewrite ?V; congruence.
Qed.
End Read.

(** ** The bindings *)
Lemma convertible_syntax io ok url c k d : convertible io ok url c k d -> exists v, def_into_syntax d = Some v.
Proof.
  intros H. unfold def_into_syntax. destruct (nd_reverse d) eqn:R; [|eexists; reflexivity].
  destruct (cv_reverse _ _ _ _ _ _ H R) as ((i & ->) & _). eexists. reflexivity.
Qed.
Lemma bindings_syntax l : (forall k d, In (k, d) l -> exists v, def_into_syntax d = Some v) ->
  exists b, bindings_into_syntax l = Some b /\ map fst b = map fst l /\
    (forall k, assoc k b = match assoc k l with Some d => def_into_syntax d | None => None end).
Proof.
  induction l as [|[k d] l IH]; intros H.
  - exists []. repeat split.
  - destruct IH as (b & E & M & A); [intros k' d' I; apply (H k' d'); right; exact I|].
    destruct (H k d (or_introl eq_refl)) as (v & V). exists ((k, v) :: b). cbn [bindings_into_syntax]. rewrite V, E. split; [reflexivity|].
    split; [cbn; rewrite M; reflexivity|]. intros q. cbn [assoc]. destruct (streq q k); [rewrite V; reflexivity|apply A].
Qed.
Lemma assoc_in {A} k (l : list (string * A)) : NoDup (map fst l) -> forall x, In (k, x) l -> assoc k l = Some x.
Proof.
  induction l as [|[k' y] l IH]; intros N x I; [destruct I|]. cbn in N. inversion N as [|? ? N1 N2]; subst. cbn [assoc].
  destruct I as [I|I].
  - injection I as -> ->. rewrite streq_refl. reflexivity.
  - destruct (streq_spec k k') as [->|_]; [|apply IH; assumption]. exfalso. apply N1. apply in_map_iff. exists (k', x). auto.
Qed.
Lemma assoc_none {A} k (l : list (string * A)) : ~ In k (map fst l) -> assoc k l = None.
Proof.
  induction l as [|[k' y] l IH]; intros N; [reflexivity|]. cbn [assoc]. destruct (streq_spec k k') as [->|_]; [exfalso; apply N; left; reflexivity|].
  apply IH. intros I. apply N. right. exact I.
Qed.

Section Loop.
Variables (io : iops) (ld : loader) (n : nat) (c : actx) (m : merged) (url : option string) (o : popts).
Hypothesis LW : id_laws io.
Hypothesis H11 : is_10 o = false.
Hypothesis HM : forall k, m_get m (KKey k) = match get_normal c k with
  | Some d => option_map EvDef (def_into_syntax d)
  | None => None
  end.
Hypothesis HC : forall k d, get_normal c k = Some d -> convertible io (scoped_ok io ld n url o) url c k d.

(** Everything but the terms. *)
Definition frame (a b : actx) : Prop :=
  ac_orig b = ac_orig a /\ ac_base b = ac_base a /\ ac_vocab b = ac_vocab a /\ ac_lang b = ac_lang a /\ ac_dir b = ac_dir a /\
  ac_prev b = ac_prev a /\ ac_type b = ac_type a.

Lemma read_keys l : NoDup (map fst l) -> (forall k d, In (k, d) l -> get_normal c k = Some d) ->
  forall st, below c (fst st) -> calm c (snd st) ->
  (forall k, In k (map fst l) -> get_normal (fst st) k = None /\ dget (KKey k) (snd st) = None) ->
  exists st', define_keys (engine io ld (S (S n))) (map fst l) st m ps_new url false o = Ok st' /\ frame (fst st) (fst st') /\
    forall k, match assoc k l with
              | Some d => exists x, get_normal (fst st') k = Some x /\ same_term d x
              | None => get_normal (fst st') k = get_normal (fst st) k
              end.
Proof.
  induction l as [|[k d] l IH]; intros ND HL st B C HK.
  - exists st. split; [reflexivity|]. split; [repeat split|]. intros q. reflexivity.
  - cbn [map fst] in ND. inversion ND as [|? ? ND1 ND2]; subst. cbn [map fst define_keys].
    pose proof (HL k d (or_introl eq_refl)) as GK. pose proof (HC k d GK) as CV.
    destruct (HK k (or_introl eq_refl)) as [N0 D0]. destruct st as [a dm]. cbn [fst snd] in *.
    destruct (convertible_syntax _ _ _ _ _ _ CV) as (v & DV).
    cbn [engine e_define]. change (MkEng (process_body io ld (engine io ld n)) (define_body io (engine io ld n))) with (engine io ld (S n)).
    unfold define_body. cbn [fst snd]. rewrite D0. destruct (cv_key _ _ _ _ _ _ CV) as (KE & _ & _).
    destruct (streq_spec k "") as [->|_]; [contradiction|]. rewrite HM, GK, DV. cbn [option_map].
    assert (C1 : calm c ((KKey k, true) :: dm)).
    { intros s N. cbn [dget]. destruct (kk_eqb (KKey s) (KKey k)) eqn:E; [|apply C, N]. apply kk_spec in E. injection E as ->. congruence. }
    destruct (read_normal io ld n c m url o LW) with (k := k) (d := d) (st := (a, (KKey k, true) :: dm)) (v := v) as (x & dm' & E & ST & G);
      [intros s N; rewrite HM, N; reflexivity|exact H11|exact CV|exact B|exact C1|exact N0|exact DV|].
    rewrite E. cbn [bind fst snd] in *.
    set (a1 := set_normal (set_normal a k None) k (Some x)).
    assert (GA : forall q, get_normal a1 q = if streq k q then Some x else get_normal a q).
    { intros q. unfold a1. rewrite !get_normal_set. destruct (streq k q); reflexivity. }
    destruct (IH ND2) with (st := (a1, dend (KKey k) dm')) as (st' & E' & FR & R).
    + intros k' d' I. apply HL. right. exact I.
    + intros s N. cbn [fst]. rewrite GA. destruct (streq_spec k s) as [<-|_]; [congruence|apply B, N].
    + intros s N. cbn [snd]. unfold dend. cbn [dget]. destruct (kk_eqb (KKey s) (KKey k)) eqn:X; [discriminate|]. exact (grown_calm c _ _ G C1 s N).
    + intros q I. cbn [fst snd]. destruct (HK q (or_intror I)) as [Q1 Q2].
      assert (NK : q <> k) by (intros ->; contradiction).
      rewrite GA. destruct (streq_spec k q) as [->|_]; [contradiction|]. split; [exact Q1|].
      assert (NQ : kk_eqb (KKey q) (KKey k) = false) by (cbn; destruct (streq_spec q k); [contradiction|reflexivity]).
      unfold dend. cbn [dget]. rewrite NQ. destruct (G (KKey q)) as [Y|(s & Y & N & _)].
      * rewrite Y. cbn [dget]. rewrite NQ. exact Q2.
      * injection Y as <-. apply in_map_iff in I as ([k' d'] & Y & I). cbn in Y. subst k'. rewrite (HL q d' (or_intror I)) in N. discriminate.
    + exists st'. split; [exact E'|]. split.
      * destruct FR as (F1 & F2 & F3 & F4 & F5 & F6 & F7). unfold a1, set_normal in *. cbn in F1, F2, F3, F4, F5, F6, F7. repeat split; assumption.
      * intros q. cbn [assoc]. specialize (R q). cbn [fst] in R. destruct (streq_spec q k) as [->|NK].
        -- rewrite (assoc_none k l ND1) in R. rewrite R, GA, streq_refl. exists x. auto.
        -- destruct (assoc q l); [exact R|]. rewrite R, GA. destruct (streq_spec k q); [congruence|reflexivity].
Qed.
End Loop.

(** ** The whole context *)
Theorem reify_read io ld n c b0 url o :
  id_laws io -> po_mode o = JsonLd11 -> po_propagate o = true ->
  NoDup (map fst (ac_defs c)) -> ac_prev c = None ->
  (forall b, ac_base c = Some b -> iri_ok io b = true) -> (ac_base c = None -> b0 = None) ->
  (forall t, ac_vocab c = Some t -> exists i, t = TmId i /\ real_id io i) ->
  (forall k d, get_normal c k = Some d -> convertible io (scoped_ok io ld n url o) url c k d) ->
  exists s c', ctx_into_syntax c = Some s /\ process_full io ld (S (S (S n))) (ctx_new b0) (LOne (CEDef s)) url o = Ok c' /\ same_ctx c c'.
Proof.
  intros LW MO PR ND PV HB HB0 HV HC.
  destruct (bindings_syntax (ac_defs c)) as (bs & E & M & A).
  { intros k d I. eapply convertible_syntax. apply HC. apply assoc_in; [exact ND|exact I]. }
  assert (VC : exists v, match ac_vocab c with
         | None => Some None
         | Some TmNull => Some (Some NNull)
         | Some (TmId i) => Some (Some (NSome (id_str i)))
         | Some (TmKw _) => None
         end = Some v /\ v = match ac_vocab c with Some t => Some (NSome (term_str t)) | None => None end).
  { destruct (ac_vocab c) as [t|] eqn:V; [|exists None; auto]. destruct (HV t eq_refl) as (i & -> & _). eexists; split; reflexivity. }
  destruct VC as (v & VE & VV). unfold ctx_into_syntax. rewrite E, VE. clear VE.
  set (s := MkDef (option_map NSome (ac_base c)) None (option_map NSome (ac_lang c)) (option_map NSome (ac_dir c)) None None
    (option_map type_into_syntax (ac_type c)) None v bs).
  exists s. assert (H11 : is_10 o = false) by (unfold is_10; rewrite MO; reflexivity).
  unfold process_full, process_context. cbn [engine e_process].
  change (MkEng (process_body io ld (MkEng (process_body io ld (engine io ld n)) (define_body io (engine io ld n)))) (define_body io (MkEng (process_body io ld (engine io ld n)) (define_body io (engine io ld n)))))
    with (engine io ld (S (S n))).
  unfold process_body, propagate_of. change (cd_propagate s) with (@None bool). cbn [bind]. rewrite PR. cbn [negb andb entries_of process_entries].
  unfold process_def. change (cd_version s) with (@None unit). unfold import_of. change (cd_import s) with (@None string). cbn [bind].
  unfold process_merged. set (m := MkMerged s None).
  assert (B1 : process_base io (ctx_new b0) m ps_new = Ok (MkCtx b0 (ac_base c) None None None None [] None)).
  { unfold process_base. cbn [ps_is_empty ps_new]. unfold m_field. cbn [m_base m_imported m cd_base s]. destruct (ac_base c) as [b|] eqn:BC; cbn [option_map or_else].
    - rewrite (HB b eq_refl). reflexivity.
    - rewrite (HB0 eq_refl). reflexivity. }
  rewrite B1. cbn [bind].
  assert (B2 : process_vocab io (MkCtx b0 (ac_base c) None None None None [] None) m o = Ok (MkCtx b0 (ac_base c) (ac_vocab c) None None None [] None)).
  { unfold process_vocab, m_field. cbn [m_base m_imported m cd_vocab s]. rewrite VV. destruct (ac_vocab c) as [t|] eqn:V; cbn [or_else]; [|reflexivity].
    destruct (HV t eq_refl) as (i & -> & RI). cbn [term_str].
    assert (X : expand_iri_simple io (MkCtx b0 (ac_base c) None None None None [] None) (NSome (xp_of_str (id_str i))) true (Some (po_vocab o)) = Ok (Some (TmId i))).
    { destruct i as [q|q|q]; cbn [id_str real_id] in *; [| |destruct RI].
      - apply (simple_free io (ctx_new None) LW); [exact RI|split; [reflexivity|intros; right; reflexivity]|intros k _; reflexivity].
      - destruct (real_key io LW (IBlank q) RI) as [KS _]. destruct (real_colon io LW (IBlank q) RI) as [CI KL]. cbn [id_str] in *.
        unfold xp_of_str. rewrite KS. unfold expand_iri_simple. rewrite KL. unfold expand_defined, get_value, get_normal. cbn [ac_defs ac_type assoc option_map].
        destruct (streq q "@type"); cbn; rewrite CI, RI; reflexivity. }
    rewrite X. reflexivity. }
  rewrite B2. cbn [bind].
  assert (B3 : process_direction (process_language (MkCtx b0 (ac_base c) (ac_vocab c) None None None [] None) m) m o =
    Ok (MkCtx b0 (ac_base c) (ac_vocab c) (ac_lang c) (ac_dir c) None [] None)).
  { unfold process_language, process_direction, m_field. cbn [m_base m_imported m cd_language cd_direction s]. rewrite H11.
    destruct (ac_lang c), (ac_dir c); reflexivity. }
  rewrite B3. cbn [bind]. unfold define_all, m_field. cbn [m_base m_imported m cd_protected cd_type s or_else].
  set (c1 := MkCtx b0 (ac_base c) (ac_vocab c) (ac_lang c) (ac_dir c) None [] None).
  assert (B4 : exists dm, match or_else (option_map type_into_syntax (ac_type c)) None with
           | Some _ => e_define (engine io ld (S (S n))) (c1, []) m (KKeyword KType) ps_new url false o
           | None => Ok (c1, [])
           end = Ok (set_type c1 (ac_type c), dm) /\ forall k, dget (KKey k) dm = None).
  { destruct (ac_type c) as [p|] eqn:T; cbn [option_map or_else].
    - cbn [engine e_define]. unfold define_body. cbn [dget snd fst]. unfold m_get, def_get. cbn [m_base m_imported m cd_type s]. rewrite ?T. cbn [option_map or_else].
      unfold define_type_term. rewrite H11. cbn [ac_type c1 bind]. eexists. split.
      + unfold type_into_syntax. cbn [dt_protected]. destruct (po_override o), p; reflexivity.
      + intros k. reflexivity.
    - exists []. split; reflexivity. }
  destruct B4 as (dm & B4 & DM). rewrite B4. cbn [bind].
  change (m_keys m) with (map fst bs). rewrite M.
  destruct (read_keys io ld n c m url o LW H11) with (l := ac_defs c) (st := (set_type c1 (ac_type c), dm)) as (st' & E' & FR & R).
  - intros k. unfold m_get, def_get. cbn [m_base m_imported m cd_bindings s]. rewrite A. unfold get_normal.
    destruct (assoc k (ac_defs c)) as [d|]; [|reflexivity]. destruct (def_into_syntax d); reflexivity.
  - exact HC.
  - exact ND.
  - intros k d I. apply assoc_in; assumption.
  - intros k _. reflexivity.
  - intros k _. cbn [snd]. rewrite DM. discriminate.
  - intros k _. split; [reflexivity|apply DM].
  - change (define_keys (engine io ld (S (S n))) (map fst (ac_defs c)) (set_type c1 (ac_type c), dm) m ps_new url
      match or_else (@None bool) None with Some p => p | None => false end o) with (define_keys (engine io ld (S (S n))) (map fst (ac_defs c)) (set_type c1 (ac_type c), dm) m ps_new url false o).
    rewrite E'. cbn [bind]. exists (fst st'). split; [reflexivity|]. split; [reflexivity|].
    destruct FR as (F1 & F2 & F3 & F4 & F5 & F6 & F7). cbn [fst] in *. constructor; try assumption.
    + rewrite F6, PV. reflexivity.
    + intros k. specialize (R k). fold (get_normal c k) in R. destruct (get_normal c k) as [d|].
      * destruct R as (x & -> & S). exact S.
      * rewrite R. exact I.
Qed.

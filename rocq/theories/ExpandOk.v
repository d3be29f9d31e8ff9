(** What expansion gives is well formed. *)
From Verif Require Import Prelude Json Str Keyword Enums LangTag LangString Container Stack ContextSyntax Ctx Process ProcessRel
  Object ObjectEq ObjectJson ObjectJsonProofs CompactIri CompactIriRead Sound Expand.

(** ** Specification *)

(** What a JSON value is made of. *)
Inductive part : json -> json -> Prop :=
| PaSelf j : part j j
| PaItem j x l : In x l -> part j x -> part j (JArr l)
| PaField j k x m : In (k, x) m -> part j x -> part j (JObj m).

(** The contexts met in the expansion of [doc] from [c0]: those of the document, and those of
    the term definitions. *)
Inductive reached (io : iops) (ld : loader) (pf : nat) (base : option string) (doc : json) (c0 : actx) : actx -> Prop :=
| RcSelf : reached io ld pf base doc c0 c0
| RcPrevious c p : reached io ld pf base doc c0 c -> ac_prev c = Some p -> reached io ld pf base doc c0 p
| RcScoped dc c k d lc po c' : reached io ld pf base doc c0 dc -> reached io ld pf base doc c0 c ->
    get_normal dc k = Some d -> nd_context d = Some lc ->
    process_full io ld pf c lc (nd_base_url d) po = Ok c' -> reached io ld pf base doc c0 c'
| RcLocal c m j lc po c' : reached io ld pf base doc c0 c -> part (JObj m) doc -> In ("@context", j) m ->
    context_of_json (iri_ref_ok io) j = Ok lc -> process_full io ld pf c lc base po = Ok c' ->
    reached io ld pf base doc c0 c'.

(** Well-formed values: no null, strings with a language or a direction are tagged strings,
    datatypes are IRIs. *)
Inductive good_value (io : iops) : value -> Prop :=
| GvLit l t : l <> LNull -> (forall s, t = Some s -> iri_ok io s = true) -> good_value io (VLit l t)
| GvLang s : tagged s -> good_value io (VLang s)
| GvJson j : good_value io (VJson j).
(** Well-formed objects: identifiers are what their text reads as, there is no empty list of
    types, the properties satisfy [K], the reverse properties contain a colon. *)
Inductive good (io : iops) (K : id -> Prop) : obj -> Prop :=
| GdVal v : good_value io v -> good io K (OVal v)
| GdNode n : good_node io K n -> good io K (ONode n)
| GdList l : Forall (fun x => good io K (snd x)) l -> good io K (OList l)
with good_node (io : iops) (K : id -> Prop) : node -> Prop :=
| GdMk i ts g inc ps rs :
    (forall x, i = Some x -> readable io x) -> ts <> Some [] -> Forall (readable io) (opt_list ts) ->
    Forall (fun x => good io K (snd x)) (opt_list g) -> Forall (fun x => good_node io K (snd x)) (opt_list inc) ->
    Forall (fun p => readable io (fst p) /\ K (fst p) /\ Forall (fun x => good io K (snd x)) (snd p)) ps ->
    Forall (fun p => readable io (fst p) /\ contains_char ":" (id_str (fst p)) = true /\
      Forall (fun x => good_node io K (snd x)) (snd p)) (opt_list rs) ->
    good_node io K (MkNode i ts g inc ps rs).

(** The properties: with a colon, or the expansion of the index property of a term. *)
Definition key_ok (io : iops) (ld : loader) (pf : nat) (base : option string) (o : xopts) (doc : json) (c0 : actx) (p : id) : Prop :=
  contains_char ":" (id_str p) = true \/
  exists c t d k, reached io ld pf base doc c0 c /\ get_normal c t = Some d /\ nd_index d = Some k /\
    expand_iri_simple io c (NSome (xp_of_str k)) false (Some (xo_vocab o)) = Ok (Some (TmId p)).
(** No node has included nodes. *)
Inductive no_included : obj -> Prop :=
| NiVal v : no_included (OVal v)
| NiNode n : no_included_node n -> no_included (ONode n)
| NiList l : Forall (fun x => no_included (snd x)) l -> no_included (OList l)
with no_included_node : node -> Prop :=
| NiMk i ts g ps rs :
    Forall (fun x => no_included (snd x)) (opt_list g) ->
    Forall (fun p => Forall (fun x => no_included (snd x)) (snd p)) ps ->
    Forall (fun p => Forall (fun x => no_included_node (snd x)) (snd p)) (opt_list rs) ->
    no_included_node (MkNode i ts g None ps rs).

(** ** Proof *)

Lemma part_trans a b c : part a b -> part b c -> part a c.
Proof. intros H. induction 1 as [|? ? ? I _ IH|? ? ? ? I _ IH]; [exact H|econstructor 2|econstructor 3]; eauto. Qed.
Lemma part_item doc l x : part (JArr l) doc -> In x l -> part x doc.
Proof. intros P I. refine (part_trans _ _ _ _ P). econstructor 2; [exact I|constructor]. Qed.
Lemma part_field doc m k x : part (JObj m) doc -> In (k, x) m -> part x doc.
Proof. intros P I. refine (part_trans _ _ _ _ P). econstructor 3; [exact I|constructor]. Qed.
Lemma part_force doc v x : part v doc -> In x (force_array v) -> part x doc.
Proof. intros P. destruct v; cbn [force_array]; try (intros [<-|[]]; exact P). apply part_item, P. Qed.

Lemma flat_forall {A B E} (f : A -> result (list B) E) (P : B -> Prop) l r :
  flat_r f l = Ok r -> (forall x ys, In x l -> f x = Ok ys -> Forall P ys) -> Forall P r.
Proof.
  revert r. induction l as [|x l IH]; intros r H F; cbn in H; [injection H as <-; constructor|].
  apply bind_ok in H. destruct H as (y & Ey & H). apply bind_ok in H. destruct H as (ys & Eys & H). injection H as <-.
  apply Forall_app. split; [exact (F _ _ (or_introl eq_refl) Ey)|]. apply (IH _ Eys). intros z zs I. apply F. right. exact I.
Qed.
Lemma fold_inv_r {A B E} (f : A -> B -> result A E) (P : A -> Prop) l a b :
  fold_r f a l = Ok b -> P a -> (forall a x a', In x l -> P a -> f a x = Ok a' -> P a') -> P b.
Proof.
  revert a. induction l as [|x l IH]; intros a H Pa F; cbn in H; [injection H as <-; exact Pa|].
  apply bind_ok in H. destruct H as (a1 & E1 & H). apply (IH _ H); [exact (F _ _ _ (or_introl eq_refl) Pa E1)|].
  intros a2 y a3 I. apply F. right. exact I.
Qed.
Lemma map_r_forall {A B E} (f : A -> result B E) (P : B -> Prop) l r :
  map_r f l = Ok r -> (forall x y, In x l -> f x = Ok y -> P y) -> Forall P r.
Proof.
  revert r. induction l as [|x l IH]; intros r H F; cbn in H; [injection H as <-; constructor|].
  apply bind_ok in H. destruct H as (y & Ey & H). apply bind_ok in H. destruct H as (ys & Eys & H). injection H as <-.
  constructor; [exact (F _ _ (or_introl eq_refl) Ey)|]. apply (IH _ Eys). intros z zs I. apply F. right. exact I.
Qed.
Lemma set_fold {A} (h : A -> N) (e : A -> A -> bool) (R : A -> A -> Prop) (W : A -> Prop) l : forall s,
  (forall x y, W x -> W y -> R x y -> e x y = true) -> (forall x y, R x y -> h x = h y) ->
  Forall W l -> Forall W s -> distinct R s -> Forall W (fold_left (set_insert h e) l s) /\ distinct R (fold_left (set_insert h e) l s).
Proof.
  intros s He Hh. revert s. induction l as [|x l IH]; cbn; intros s Fl F D; [auto|]. inversion Fl; subst. apply IH; [assumption| |]; unfold set_insert.
  - destruct (existsb _ s); [exact F|]. apply Forall_app; auto.
  - destruct (existsb (fun y => N.eqb (h y) (h x) && e y x) s) eqn:X; [exact D|]. apply distinct_snoc; [exact D|]. intros y I Ry.
    assert (existsb (fun y => N.eqb (h y) (h x) && e y x) s = true); [|congruence]. apply existsb_exists. exists y. split; [exact I|].
    rewrite (Hh y x Ry), N.eqb_refl. apply He; auto. exact (Forall_in _ _ _ F I).
Qed.
Lemma set_sub {A} (h : A -> N) (e : A -> A -> bool) (P : A -> Prop) l : forall s, Forall P l -> Forall P s -> Forall P (fold_left (set_insert h e) l s).
Proof.
  induction l as [|x l IH]; cbn; intros s Fl F; [exact F|]. inversion Fl; subst. apply IH; [assumption|]. unfold set_insert.
  destruct (existsb _ s); [exact F|]. apply Forall_app; auto.
Qed.
Lemma insert_sorted_incl {A} (key : A -> string) x l : incl (insert_sorted key x l) (x :: l).
Proof.
  induction l as [|y l IH]; cbn [insert_sorted]; [apply incl_refl|]. destruct (String.compare (key x) (key y)); try apply incl_refl.
  intros z [<-|I]; [right; left; reflexivity|]. destruct (IH _ I) as [<-|J]; [left; reflexivity|right; right; exact J].
Qed.
Lemma sort_key_incl {A} (key : A -> string) l : incl (sort_key key l) l.
Proof.
  induction l as [|x l IH]; [apply incl_refl|]. cbn [sort_key fold_right]. intros z I. apply insert_sorted_incl in I.
  destruct I as [<-|I]; [left; reflexivity|right; apply IH, I].
Qed.

Section Ok.
Variable io : iops.
Variable ld : loader.
Variables (fin rnd : list word -> N).
Variable pf : nat.
Variable o : xopts.
Variable base_url : option string.
Variable doc : json.
Variable c0 : actx.
Hypothesis L : id_laws io.
Hypothesis S0 : sound io c0.

Notation reached := (reached io ld pf base_url doc c0).
Notation key_ok := (key_ok io ld pf base_url o doc c0).
Notation good := (good io key_ok).
Notation good_node := (good_node io key_ok).

Definition fine (x : iobj) : Prop := good (snd x) /\ wf (snd x).
Definition fine_node (n : node) : Prop := good_node n /\ wf_node n.

Lemma reached_sound c : reached c -> sound io c.
Proof.
  induction 1 as [|c p _ S P|dc c k d lc po c' _ _ _ S _ _ E|c m j lc po c' _ S _ _ _ E].
  - exact S0.
  - destruct S as [? _ _ Q]. exact (Q _ P).
  - exact (full_sound io L _ _ _ _ _ _ _ E S).
  - exact (full_sound io L _ _ _ _ _ _ _ E S).
Qed.
Lemma prop_get c ap d : prop_def c ap = Some d -> exists k, ap = Some k /\ get_normal c k = Some d.
Proof. unfold prop_def. destruct ap as [k|]; [|discriminate]. destruct (streq k "@type"); [discriminate|]. eauto. Qed.
Lemma scoped_reached dc c ap d lc po c' : reached dc -> reached c -> prop_def dc ap = Some d -> nd_context d = Some lc ->
  xprocess io ld pf c lc (nd_base_url d) po = Ok c' -> reached c'.
Proof.
  intros D C P N E. destruct (prop_get _ _ _ P) as (k & _ & G). unfold xprocess, map_err in E.
  destruct (process_full io ld pf c lc (nd_base_url d) po) as [c1|] eqn:F; [|discriminate]. injection E as <-.
  exact (RcScoped _ _ _ _ _ _ _ _ _ _ _ _ _ D C G N F).
Qed.
Lemma iri_readable_of c s dr vo i : reached c -> xiri io c s dr vo = Ok (Some (TmId i)) -> readable io i.
Proof.
  intros C. unfold xiri, map_err. destruct (expand_iri_simple _ _ _ _ _) as [t|] eqn:E; [|discriminate]. intros X. injection X as ->.
  exact (expand_sound io L _ _ _ _ _ (reached_sound _ C) E).
Qed.
Lemma key_readable c s i : reached c -> xkey io o c s = Ok (Some (TmId i)) -> readable io i.
Proof.
  intros C. unfold xkey, map_err at 1. destruct (xiri io c s false (Some (xo_vocab o))) as [t|] eqn:E; [|discriminate]. intros X. injection X as ->.
  exact (iri_readable_of _ _ _ _ _ C E).
Qed.

(** *** Nodes *)
Lemma new_fine i : (forall x, i = Some x -> readable io x) -> fine_node (node_new i).
Proof. intros R. split; constructor; try constructor; auto; discriminate. Qed.
Lemma node_id_readable c s dr vo t : reached c -> xiri io c s dr vo = Ok t ->
  forall x, match t with Some t => node_id_of_term t | None => None end = Some x -> readable io x.
Proof.
  intros C H x. destruct t as [[|i|k]|]; cbn; try discriminate; intros E; injection E as <-.
  - exact (iri_readable_of _ _ _ _ _ C H).
  - apply (keyword_readable io L).
Qed.
Lemma set_nid_fine i n : fine_node n -> (forall x, i = Some x -> readable io x) -> fine_node (set_nid i n).
Proof. intros [G W] R. destruct n. inversion G; inversion W; subst. split; constructor; assumption. Qed.
Lemma push_fine t n : fine_node n -> readable io t -> fine_node (push_type t n).
Proof.
  intros [G W] R. destruct n as [i ts g inc ps rs]. inversion G; inversion W; subst. split; constructor; try assumption.
  - destruct ts as [[]|]; discriminate.
  - cbn [opt_list]. apply Forall_app. split; [assumption|repeat constructor; exact R].
Qed.
Lemma unshift_fine t n : fine_node n -> readable io t -> fine_node (unshift_type t n).
Proof.
  intros [G W] R. destruct n as [i ts g inc ps rs]. inversion G; inversion W; subst. split; constructor; try assumption.
  - discriminate.
  - cbn [opt_list]. constructor; assumption.
Qed.
Lemma fine_split l : Forall fine l -> Forall (fun x => good (snd x)) l /\ Forall (fun x => wf (snd x)) l.
Proof. intros F. split; (eapply Forall_impl; [|exact F]); intros x [G W]; assumption. Qed.
Lemma fine_split_n (l : list inode) : Forall (fun x => fine_node (snd x)) l -> Forall (fun x => good_node (snd x)) l /\ Forall (fun x => wf_node (snd x)) l.
Proof. intros F. split; (eapply Forall_impl; [|exact F]); intros x [G W]; assumption. Qed.
Lemma oset_fine l : Forall fine l -> Forall fine (oset fin rnd l) /\ distinct same_i (oset fin rnd l).
Proof.
  intros F. split; [apply set_sub; [exact F|constructor]|].
  apply (set_fold (iobj_hash fin rnd) (iobj_eqb fin rnd) same_i (fun x => wf (snd x))); [| |apply (proj2 (fine_split _ F))|constructor|constructor].
  - intros [a x] [b y] Wx Wy [E S]. unfold iobj_eqb. rewrite (proj2 (opt_streq _ _) E). cbn. apply (proj1 (eqb_both fin rnd)); assumption.
  - intros [a x] [b y] [E S]. unfold iobj_hash, iobj_words. cbn in *. subst. rewrite (proj1 (same_words_both fin) _ _ S). reflexivity.
Qed.
Lemma set_graph_fine l n : fine_node n -> Forall fine l -> distinct same_i l -> fine_node (set_ngraph (Some l) n).
Proof. intros [G W] F D. destruct (fine_split _ F). destruct n. inversion G; inversion W; subst. split; constructor; assumption. Qed.
Lemma graph_of_fine x : fine x -> fine (graph_of fin rnd x).
Proof.
  intros F. unfold graph_of. assert (N : fine_node (set_ngraph (Some (oset_insert fin rnd [] x)) (node_new None))).
  { apply set_graph_fine; [apply new_fine; discriminate|repeat constructor; apply F|repeat constructor]. }
  split; constructor; apply N.
Qed.
Lemma included_fine l n : fine_node n -> Forall (fun x => fine_node (snd x)) l -> fine_node (add_included fin rnd l n).
Proof.
  intros [G W] F. destruct (fine_split_n _ F) as [Fg Fw]. destruct n. inversion G as [? ? ? ? ? ? G1 G2 G3 G4 G5 G6 G7]; inversion W as [? ? ? ? ? ? W1 W2 W3 W4 W5 W6 W7 W8]; subst.
  assert (E : Forall (fun x => wf_node (snd x)) (fold_left (nset_insert fin rnd) l (opt_list inc)) /\ distinct same_in (fold_left (nset_insert fin rnd) l (opt_list inc))).
  { apply (set_fold (inode_hash fin rnd) (inode_eqb fin rnd) same_in (fun x => wf_node (snd x))); [| |exact Fw|exact W3|exact W4].
    - intros [a x] [b y] Wx Wy [E S]. unfold inode_eqb. rewrite (proj2 (opt_streq _ _) E). cbn. apply (proj2 (eqb_both fin rnd)); assumption.
    - intros [a x] [b y] [E S]. unfold inode_hash, inode_words. cbn in *. subst. rewrite (proj2 (same_words_both fin) _ _ S). reflexivity. }
  split; constructor; try assumption; cbn [opt_list]; try apply E. apply set_sub; assumption.
Qed.
Lemma insert_all_good {A} (Q : id -> Prop) (P : A -> Prop) p v (ps : list (id * list A)) :
  Forall (fun e => readable io (fst e) /\ Q (fst e) /\ Forall P (snd e)) ps -> readable io p -> Q p -> Forall P v ->
  Forall (fun e => readable io (fst e) /\ Q (fst e) /\ Forall P (snd e)) (insert_all p v ps).
Proof.
  intros F R Qp V. induction F as [|[k w] ps (R' & Qk & Fw) F IH]; cbn [insert_all]; [repeat constructor; assumption|].
  destruct (id_eqb p k); constructor; cbn [fst snd] in *; auto. split; [exact R'|]. split; [exact Qk|]. apply Forall_app; auto.
Qed.
Lemma prop_fine p l n : fine_node n -> readable io p -> key_ok p -> Forall fine l -> fine_node (add_prop p l n).
Proof.
  intros [G W] R K F. destruct (fine_split _ F) as [Fg Fw]. destruct n. inversion G; inversion W; subst. split; constructor; try assumption.
  - apply insert_all_good; assumption.
  - apply insert_all_nodup. assumption.
  - apply insert_all_values; assumption.
Qed.
Lemma reverse_fine p l n : fine_node n -> readable io p -> contains_char ":" (id_str p) = true -> Forall (fun x => fine_node (snd x)) l -> fine_node (add_reverse p l n).
Proof.
  intros [G W] R K F. destruct (fine_split_n _ F) as [Fg Fw]. destruct n. inversion G; inversion W; subst. split; constructor; try assumption; cbn [opt_list].
  - apply (insert_all_good (fun k => contains_char ":" (id_str k) = true)); assumption.
  - apply insert_all_nodup. assumption.
  - apply insert_all_values; assumption.
Qed.
Lemma as_nodes_fine e l r : as_nodes e l = Ok r -> Forall fine l -> Forall (fun x => fine_node (snd x)) r.
Proof.
  intros H F. refine (map_r_forall _ _ _ _ H _). intros x y I E. destruct (as_node x) as [n|] eqn:N; [|discriminate]. injection E as <-.
  unfold as_node in N. pose proof (Forall_in _ _ _ F I) as [G W]. destruct (snd x); try discriminate. injection N as <-. cbn.
  inversion G; inversion W; subst. split; assumption.
Qed.
Lemma as_node_fine i n : fine (i, ONode n) -> fine_node n.
Proof. intros [G W]. inversion G; inversion W; subst. split; assumption. Qed.
Lemma node_fine i n : fine_node n -> fine (i, ONode n).
Proof. intros [G W]. split; constructor; assumption. Qed.
Lemma fine_index i x : fine x -> fine (i, snd x). Proof. exact (fun H => H). Qed.

(** *** Values *)
Lemma value_fine i v : good_value io v -> fine (i, OVal v).
Proof. intros H. split; constructor; exact H. Qed.
Lemma string_good s l d : good_value io (string_value s l d).
Proof.
  unfold string_value, ls_new. destruct l; cbn; [constructor; left; discriminate|]. destruct d; cbn; constructor; try discriminate. right. discriminate.
Qed.
Lemma literal_fine c ap v x : reached c -> v <> LNull -> expand_literal io o c ap v = Ok x -> fine x.
Proof.
  intros C N H. unfold expand_literal in H. cbn zeta in H. destruct (prop_def c ap) as [d|] eqn:P.
  - destruct (prop_get _ _ _ P) as (k & _ & G). pose proof (sound_get io _ _ _ (reached_sound _ C) G) as D.
    destruct (nd_typ d) as [[]|] eqn:T; destruct v; try congruence;
      try (injection H as <-; apply value_fine; first [apply string_good|constructor; [discriminate|intros y Y; discriminate]|idtac]).
    + destruct (xiri io c s true None) as [[t|]|] eqn:X; try discriminate. injection H as <-. apply node_fine, new_fine.
      exact (node_id_readable _ _ _ _ _ C X).
    + apply bind_ok in H. destruct H as (t & X & H). injection H as <-. apply node_fine, new_fine. unfold map_err in X.
      destruct (xiri io c s true (Some (xo_vocab o))) eqn:X'; [|discriminate]. injection X as ->. exact (node_id_readable _ _ _ _ _ C X').
    + constructor; [discriminate|]. intros y Y. injection Y as <-. exact (sn_type _ _ D _ T).
    + constructor; [discriminate|]. intros y Y. injection Y as <-. exact (sn_type _ _ D _ T).
    + constructor; [discriminate|]. intros y Y. injection Y as <-. exact (sn_type _ _ D _ T).
  - destruct v; try congruence; injection H as <-; apply value_fine; try apply string_good; constructor; try discriminate.
Qed.
Lemma expand_value_fine it tsc es ve x : reached tsc -> expand_value io o it tsc es ve = Ok (Some x) -> fine x.
Proof.
  intros C H. unfold expand_value in H. cbn zeta in H. apply bind_ok in H. destruct H as (s & E & H).
  assert (T : forall t, vs_ty s = Some t -> iri_ok io t = true).
  { refine (fold_inv_r _ (fun s => forall t, vs_ty s = Some t -> iri_ok io t = true) _ _ _ E _ _); [discriminate|].
    intros a e a' _ Ha F. destruct e as [[key k] v]. unfold value_step in F. destruct k as [|i|k]; try discriminate.
    destruct k; try discriminate; try (injection F as <-; exact Ha).
    - destruct (as_str v); [|discriminate]. destruct (dir_of_str s0); [|discriminate]. injection F as <-. exact Ha.
    - destruct (as_str v); [|discriminate]. injection F as <-. exact Ha.
    - destruct (as_str v); [|discriminate]. injection F as <-. destruct (streq s0 "@none"); exact Ha.
    - destruct (as_str v) as [t|]; [|discriminate]. apply bind_ok in F. destruct F as (u & X & F). unfold map_err in X.
      destruct (xiri io tsc t true (Some (xo_vocab o))) eqn:X'; [|discriminate]. injection X as ->.
      destruct u as [[|[i|i|i]|k]|]; try discriminate.
      + injection F as <-. cbn. intros t' Y. injection Y as <-. exact (readable_iri io _ (iri_readable_of _ _ _ _ _ C X')).
      + destruct k; try discriminate. injection F as <-. exact Ha. }
  destruct (vs_json s).
  { destruct (_ || _); [discriminate|]. injection H as <-. apply value_fine. constructor. }
  destruct ve; try discriminate; destruct (is_some (vs_lang s) || is_some (vs_dir s)) eqn:LD; try (destruct (is_some (vs_ty s)); discriminate);
    try (cbn in H; injection H as <-; apply value_fine; constructor; [discriminate|exact T]).
  destruct (is_some (vs_ty s)); [discriminate|]. unfold ls_new in H. rewrite LD in H. injection H as <-. apply value_fine. constructor.
  unfold tagged. cbn. destruct (vs_lang s); [left; discriminate|]. destruct (vs_dir s); [right; discriminate|discriminate].
Qed.

(** *** Entries *)
Section Rec.
Variable rec : actx -> option string -> json -> bool -> result expanded xerr.
Hypothesis HR : forall c ap j fm x, reached c -> part j doc -> rec c ap j fm = Ok x -> Forall fine (items x).

Lemma policy_ok i e b : invalid_policy o i e = Ok b -> True. Proof. auto. Qed.
Lemma types_fine tsc v n n' : reached tsc -> fine_node n -> expand_types io o tsc v n = Ok n' -> fine_node n'.
Proof.
  intros C F H. refine (fold_inv_r _ fine_node _ _ _ H F _). intros a t a' _ Fa E. destruct (as_str t) as [s|]; [|discriminate].
  apply bind_ok in E. destruct E as (u & X & E). unfold map_err in X. destruct (xiri io tsc s true (Some (xo_vocab o))) eqn:X'; [|discriminate].
  injection X as ->. destruct u as [u|]; [|injection E as <-; exact Fa]. destruct u as [|i|k]; cbn in E; try discriminate.
  apply bind_ok in E. destruct E as (b & _ & E). injection E as <-. destruct b; [|exact Fa]. apply push_fine; [exact Fa|exact (iri_readable_of _ _ _ _ _ C X')].
Qed.
Lemma reverse_entry_fine c n e n' : reached c -> part (snd e) doc -> fine_node n -> reverse_entry io o rec c n e = Ok n' -> fine_node n'.
Proof.
  intros C P F H. destruct e as [k v]. cbn [reverse_entry snd] in *. apply bind_ok in H. destruct H as (t & X & H).
  destruct t as [[|p|kw]|]; try discriminate; try (destruct (_ || _); [discriminate|injection H as <-; exact F]).
  destruct (id_has_colon p) eqn:HC; [|destruct (_ || _); [discriminate|injection H as <-; exact F]].
  apply bind_ok in H. destruct H as (b & _ & H). destruct (negb b); [injection H as <-; exact F|].
  apply bind_ok in H. destruct H as (x & E & H). pose proof (HR _ _ _ _ _ C P E) as Fx. pose proof (key_readable _ _ _ C X) as R.
  destruct (match prop_def c (Some k) with Some d => nd_reverse d | None => false end).
  - injection H as <-. apply prop_fine; auto. left. exact HC.
  - apply bind_ok in H. destruct H as (l & El & H). injection H as <-. apply reverse_fine; auto. exact (as_nodes_fine _ _ _ El Fx).
Qed.
Lemma entries_in m e : In e (entries_sorted o m) -> In e m.
Proof. unfold entries_sorted. destruct (xo_ordered o); [apply sort_key_incl|auto]. Qed.
Lemma language_map_fine c d m l : expand_language_map io o c d m = Ok l -> Forall fine l.
Proof.
  intros H. refine (flat_forall _ _ _ _ H _). intros e ys _ E. refine (flat_forall _ _ _ _ E _). intros it zs _ E'.
  destruct it; try discriminate; [injection E' as <-; constructor|]. apply bind_ok in E'. destruct E' as (t & _ & E'). injection E' as <-.
  constructor; [|constructor]. apply value_fine, string_good.
Qed.
Lemma index_item_fine c key d cont ik index x item y : reached c -> prop_def c (Some key) = d -> cont = has_container d ->
  ik = match d with Some d => match nd_index d with Some i => i | None => "@index" end | None => "@index" end ->
  (forall t, x = Some (TmId t) -> readable io t) ->
  fine item -> index_item io fin rnd o c cont ik index x item = Ok (Some y) -> fine y.
Proof.
  intros C D CE IK X F H. unfold index_item in H. cbn zeta in H.
  set (it := if cont CKGraph && negb (o_is_graph (snd item)) then graph_of fin rnd item else item) in *.
  assert (Fi : fine it) by (unfold it; destruct (_ && _); [apply graph_of_fine|]; exact F). clearbody it.
  destruct x as [x|]; [|injection H as <-; exact Fi].
  destruct (cont CKIndex && negb (streq ik "@index")) eqn:B1.
  { apply andb_true_iff in B1. destruct B1 as [_ B1]. apply bind_ok in H. destruct H as (re & E & H). apply bind_ok in H. destruct H as (t & E2 & H).
    unfold map_err in E. destruct (expand_literal io o c (Some ik) (LStr index)) as [re'|] eqn:E1; [|discriminate]. injection E as ->.
    pose proof (literal_fine c (Some ik) (LStr index) re C ltac:(discriminate) E1) as Fr.
    destruct t as [[|p|k]|]; try discriminate. destruct (snd it) eqn:Si; try discriminate. injection H as <-.
    apply node_fine, prop_fine; [apply (as_node_fine (fst it)); rewrite <- Si; destruct it; exact Fi|exact (key_readable _ _ _ C E2)| |constructor; [exact Fr|constructor]].
    right. destruct d as [d|]; [|subst ik; discriminate B1]. destruct (nd_index d) as [k'|] eqn:ND; [|subst ik; discriminate B1]. subst ik.
    destruct (prop_get _ _ _ D) as (t & _ & G). exists c, t, d, k'. split; [exact C|]. split; [exact G|]. split; [exact ND|].
    unfold xkey, xiri, map_err in E2. destruct (expand_iri_simple _ _ _ _ _) as [u|]; [|discriminate]. injection E2 as ->. reflexivity. }
  destruct (cont CKIndex && negb (is_some (fst it))); [injection H as <-; exact Fi|].
  destruct (cont CKId && negb (is_some (o_id (snd it)))).
  { destruct (snd it) eqn:Si; try (injection H as <-; exact Fi). apply bind_ok in H. destruct H as (t & E & H). unfold map_err in E.
    destruct (xiri io c index true None) eqn:E1; [|discriminate]. injection E as ->. injection H as <-.
    apply node_fine, set_nid_fine; [apply (as_node_fine (fst it)); rewrite <- Si; destruct it; exact Fi|exact (node_id_readable _ _ _ _ _ C E1)]. }
  destruct (cont CKType); [|injection H as <-; exact Fi].
  destruct (id_of_term x) as [t|] eqn:T; [|discriminate]. injection H as <-. destruct (snd it) eqn:Si; try exact Fi.
  apply node_fine, unshift_fine; [apply (as_node_fine (fst it)); rewrite <- Si; destruct it; exact Fi|].
  destruct x; try discriminate. injection T as <-. apply X. reflexivity.
Qed.
Lemma index_map_fine c key m l : reached c -> part (JObj m) doc -> expand_index_map io ld fin rnd pf o rec c (prop_def c (Some key)) key m = Ok l -> Forall fine l.
Proof.
  intros C P H. refine (flat_forall _ _ _ _ H _). intros [index v] ys I E. apply entries_in in I. cbn zeta in E.
  set (cont := has_container (prop_def c (Some key))) in *.
  set (mc := if cont CKType || cont CKId then match ac_prev c with Some p => p | None => c end else c) in *.
  assert (Cm : reached mc).
  { unfold mc. destruct (_ || _); [|exact C]. destruct (ac_prev c) as [p|] eqn:Pv; [exact (RcPrevious _ _ _ _ _ _ _ _ C Pv)|exact C]. }
  clearbody mc. apply bind_ok in E. destruct E as (mc' & E1 & E).
  assert (Cm' : reached mc').
  { destruct (cont CKType); [|injection E1 as <-; exact Cm]. destruct (prop_def mc (Some index)) as [d|] eqn:D; [|injection E1 as <-; exact Cm].
    destruct (nd_context d) as [lc|] eqn:N; [|injection E1 as <-; exact Cm]. exact (scoped_reached _ _ _ _ _ _ _ Cm Cm D N E1). }
  apply bind_ok in E. destruct E as (x & E2 & E). apply bind_ok in E. destruct E as (ev & E3 & E).
  pose proof (HR _ _ _ _ _ Cm' (part_field _ _ _ _ P I) E3) as Fe.
  refine (flat_forall _ _ _ _ E _). intros item zs J E4. apply bind_ok in E4. destruct E4 as (r & E5 & E4). injection E4 as <-.
  destruct r as [y|]; [|constructor]. constructor; [|constructor].
  refine (index_item_fine c key (prop_def c (Some key)) cont _ index _ item y C eq_refl eq_refl eq_refl _ (Forall_in _ _ _ Fe J) E5).
  intros t Xt. destruct x as [[|p|kw]|]; try discriminate Xt; [|destruct kw; discriminate Xt]. injection Xt as ->. exact (key_readable _ _ _ C E2).
Qed.
Lemma property_fine c key v x : reached c -> part v doc -> expand_property io ld fin rnd pf o rec c key v = Ok x -> Forall fine (items x).
Proof.
  intros C P H. unfold expand_property in H. cbn zeta in H.
  destruct (match prop_def c (Some key) with Some d => match nd_typ d with Some TyJson => true | _ => false end | None => false end).
  { injection H as <-. constructor; [|constructor]. apply value_fine. constructor. }
  destruct v; try exact (HR _ _ _ _ _ C P H).
  destruct (has_container (prop_def c (Some key)) CKLanguage).
  { apply bind_ok in H. destruct H as (r & E & H). injection H as <-. exact (language_map_fine _ _ _ _ E). }
  destruct (_ || _); [|exact (HR _ _ _ _ _ C P H)]. apply bind_ok in H. destruct H as (r & E & H). injection H as <-. exact (index_map_fine _ _ _ _ C P E).
Qed.
Lemma list_fine i l : Forall fine l -> fine (i, OList l).
Proof. intros F. destruct (fine_split _ F). split; constructor; assumption. Qed.
Lemma wraps_fine d x : Forall fine (items x) -> Forall fine (items (wrap_graph fin rnd d (wrap_list d x))).
Proof.
  intros F. assert (G : Forall fine (items (wrap_list d x))).
  { unfold wrap_list. destruct (_ && _); [|exact F]. constructor; [|constructor]. apply (list_fine None); exact F. }
  unfold wrap_graph. destruct (_ && _ && _); [|exact G]. cbn [items]. apply Forall_forall. intros y I. apply in_map_iff in I.
  destruct I as (z & <- & I). apply graph_of_fine. exact (Forall_in _ _ _ G I).
Qed.
Lemma property_entry_fine c key p v n n' : reached c -> part v doc -> readable io p -> fine_node n ->
  property_entry io ld fin rnd pf o rec c key p v n = Ok n' -> fine_node n'.
Proof.
  intros C P R F H. unfold property_entry in H. destruct (id_has_colon p) eqn:HC.
  - apply bind_ok in H. destruct H as (b & _ & H). destruct (negb b); [injection H as <-; exact F|]. apply bind_ok in H. destruct H as (x & E & H).
    pose proof (wraps_fine (prop_def c (Some key)) x (property_fine _ _ _ _ C P E)) as Fx. cbn zeta in H. unfold store in H.
    destruct (wrap_graph fin rnd _ _) as [|y|l]; [injection H as <-; exact F| |];
      (destruct (match prop_def c (Some key) with Some d => nd_reverse d | None => false end);
       [apply bind_ok in H; destruct H as (r & Er & H); injection H as <-; apply reverse_fine; auto; exact (as_nodes_fine _ _ _ Er Fx)
       |injection H as <-; apply prop_fine; auto; left; exact HC]).
  - apply bind_ok in H. destruct H as (b & _ & H). destruct (xo_allow_undefined o); [injection H as <-; exact F|discriminate].
Qed.

Definition entry_ok (e : xentry) : Prop := part (snd e) doc /\ forall p, snd (fst e) = TmId p -> readable io p.
Definition self_ok (self : actx -> list xentry -> nstate -> result nstate xerr) : Prop :=
  forall c es s s', reached c -> Forall entry_ok es -> fine_node (snd (fst s)) -> self c es s = Ok s' -> fine_node (snd (fst s')).

Lemma entries_ok c m l es : reached c -> part (JObj m) doc -> incl l m ->
  flat_r (fun e : string * json => do t <- xkey io o c (fst e) ; Ok (match t with Some t => [(fst e, t, snd e)] | None => [] end)) l = Ok es -> Forall entry_ok es.
Proof.
  intros C P I H. refine (flat_forall _ _ _ _ H _). intros [k v] ys J E. cbn [fst snd] in E. apply bind_ok in E. destruct E as (t & X & E).
  injection E as <-. destruct t as [t|]; [|constructor]. repeat constructor; cbn [fst snd].
  - exact (part_field _ _ _ _ P (I _ J)).
  - intros p ->. exact (key_readable _ _ _ C X).
Qed.
Lemma nest_fine self c key s v s' : self_ok self -> reached c -> part v doc -> fine_node (snd (fst s)) ->
  nest_entry io ld pf o self c key s v = Ok s' -> fine_node (snd (fst s')).
Proof.
  intros HS C P F H. unfold nest_entry in H. apply bind_ok in H. destruct H as (c1 & E1 & H).
  assert (C1 : reached c1).
  { destruct (prop_def c (Some key)) as [d|] eqn:D; [|injection E1 as <-; exact C].
    destruct (nd_context d) as [lc|] eqn:N; [|injection E1 as <-; exact C]. exact (scoped_reached _ _ _ _ _ _ _ C C D N E1). }
  destruct v; try discriminate. apply bind_ok in H. destruct H as (es & E2 & H). refine (HS _ _ _ _ C1 _ F H).
  refine (entries_ok c1 l (entries_sorted o l) es C1 P _ E2). intros e. apply entries_in.
Qed.
Lemma keyword_fine self ap c tsc s key k v s' : self_ok self -> reached c -> reached tsc -> part v doc -> fine_node (snd (fst s)) ->
  keyword_entry io ld fin rnd pf o rec self ap c tsc s key k v = Ok s' -> fine_node (snd (fst s')).
Proof.
  intros HS C T P F H. unfold keyword_entry in H. cbn zeta in H. destruct (ap_is ap KReverse); [discriminate|].
  match type of H with (if ?b then _ else _) = _ => destruct b end; [discriminate|].
  destruct k; try (injection H as <-; exact F); try discriminate.
  - (* @graph *) apply bind_ok in H. destruct H as (x & E & H). injection H as <-. cbn.
    assert (Fx : Forall fine (filter top_level (items x))).
    { apply Forall_forall. intros y I. apply filter_In in I. exact (Forall_in _ _ _ (HR _ _ _ _ _ C P E) (proj1 I)). }
    destruct (oset_fine _ Fx). apply set_graph_fine; assumption.
  - (* @id *) destruct (as_str v) as [i|]; [|discriminate]. apply bind_ok in H. destruct H as (t & E & H). unfold map_err in E.
    destruct (xiri io c i true None) eqn:E1; [|discriminate]. injection E as ->. injection H as <-. cbn. apply set_nid_fine; [exact F|exact (node_id_readable _ _ _ _ _ C E1)].
  - (* @included *) destruct (xo_mode o); [injection H as <-; exact F|]. apply bind_ok in H. destruct H as (x & E & H). apply bind_ok in H. destruct H as (l & El & H).
    injection H as <-. cbn. apply included_fine; [exact F|]. exact (as_nodes_fine _ _ _ El (HR _ _ _ _ _ C P E)).
  - (* @index *) destruct (as_str v); [|discriminate]. injection H as <-. exact F.
  - (* @nest *) refine (fold_inv_r _ (fun s => fine_node (snd (fst s))) _ _ _ H F _). intros a x a' I Fa E. exact (nest_fine _ _ _ _ _ _ HS C (part_force _ _ _ P I) Fa E).
  - (* @reverse *) destruct v; try discriminate. apply bind_ok in H. destruct H as (n & E & H). injection H as <-. cbn.
    refine (fold_inv_r _ fine_node _ _ _ E F _). intros a e a' I Fa E'. apply entries_in in I. destruct e as [k x].
    exact (reverse_entry_fine c _ (k, x) _ C (part_field _ _ _ _ P I) Fa E').
  - (* @type *) apply bind_ok in H. destruct H as (n & E & H). injection H as <-. cbn. exact (types_fine _ _ _ _ T F E).
Qed.
Lemma node_entries_fine m ap tsc : reached tsc -> self_ok (node_entries io ld fin rnd pf o rec m ap tsc).
Proof.
  intros T. induction m as [|m IH]; intros c es s s' C F Fs H; [discriminate|]. cbn [node_entries] in H.
  refine (fold_inv_r _ (fun s => fine_node (snd (fst s))) _ _ _ H Fs _). intros a [[key t] v] a' I Fa E.
  destruct (Forall_in _ _ _ F I) as [P R]. cbn [fst snd] in *. unfold node_entry in E. destruct t as [|p|k]; [injection E as <-; exact Fa| |].
  - apply bind_ok in E. destruct E as (n & E & X). injection X as <-. cbn. exact (property_entry_fine _ _ _ _ _ _ C P (R _ eq_refl) Fa E).
  - destruct k; try exact (keyword_fine _ _ _ _ _ _ _ _ _ IH C T P Fa E). injection E as <-. exact Fa.
Qed.
Lemma expand_node_fine m ap c tsc es n : reached c -> reached tsc -> Forall entry_ok es -> expand_node io ld fin rnd pf o rec m ap c tsc es = Ok (Some n) -> fine_node (snd n).
Proof.
  intros C T F H. unfold expand_node in H. apply bind_ok in H. destruct H as ([r hv] & E & H).
  pose proof (node_entries_fine m ap tsc T c es ((None, node_new None), false) _ C F (new_fine None ltac:(discriminate)) E) as Fr. cbn in Fr.
  destruct (_ && _ && _); [discriminate|]. destruct (_ && _ && _); [discriminate|]. injection H as <-. exact Fr.
Qed.

Lemma get_unique_in k m j : get_unique k m = Ok (Some j) -> In (k, j) m.
Proof.
  unfold get_unique. intros H.
  assert (I : In j (get_all k m)).
  { destruct (get_all k m) as [|x [|y l]]; try discriminate. injection H as <-. left. reflexivity. }
  unfold get_all in I. apply in_map_iff in I. destruct I as ([k' x] & <- & I). apply filter_In in I. destruct I as [I E]. cbn [fst] in E.
  destruct (streq_spec k' k); [subst; exact I|discriminate].
Qed.
Lemma context_reached c ap m fm c' : reached c -> part (JObj m) doc -> element_context io ld pf o base_url c ap m fm = Ok c' -> reached c'.
Proof.
  intros C P H. unfold element_context in H. cbn zeta in H. apply bind_ok in H. destruct H as ([hv hi] & _ & H).
  set (c1 := match ac_prev c with Some p => if negb fm && negb hv && negb (Nat.eqb (length m) 1 && hi) then p else c | None => c end) in *.
  assert (C1 : reached c1).
  { unfold c1. destruct (ac_prev c) as [p|] eqn:Pv; [|exact C]. destruct (_ && _ && _); [exact (RcPrevious _ _ _ _ _ _ _ _ C Pv)|exact C]. }
  clearbody c1. apply bind_ok in H. destruct H as (c2 & E2 & H).
  assert (C2 : reached c2).
  { destruct (prop_def c ap) as [d|] eqn:D; [|injection E2 as <-; exact C1].
    destruct (nd_context d) as [lc|] eqn:N; [|injection E2 as <-; exact C1]. exact (scoped_reached _ _ _ _ _ _ _ C C1 D N E2). }
  apply bind_ok in H. destruct H as (lc & E3 & H). destruct lc as [j|]; [|injection H as <-; exact C2].
  apply bind_ok in H. destruct H as (lc & E4 & H). unfold map_err in E3, E4. destruct (get_unique "@context" m) as [x|] eqn:U; [|discriminate]. injection E3 as ->.
  destruct (context_of_json (iri_ref_ok io) j) as [lc'|] eqn:J; [|discriminate]. injection E4 as ->.
  unfold xprocess, map_err in H. destruct (process_full io ld pf c2 lc base_url (popts_of o)) as [c3|] eqn:E; [|discriminate]. injection H as <-.
  exact (RcLocal _ _ _ _ _ _ _ _ _ _ _ _ C2 P (get_unique_in _ _ _ U) J E).
Qed.
Lemma type_scoped_reached tsc ts c' : reached tsc -> type_scoped io ld pf o tsc ts = Ok c' -> reached c'.
Proof.
  intros T H. refine (fold_inv_r _ reached _ _ _ H T _). intros c e c1 _ C E. refine (fold_inv_r _ reached _ _ _ E C _). intros c2 t c3 _ C2 E2.
  destruct (prop_def tsc (Some t)) as [d|] eqn:D; [|injection E2 as <-; exact C2].
  destruct (nd_context d) as [lc|] eqn:N; [|injection E2 as <-; exact C2]. exact (scoped_reached _ _ _ _ _ _ _ T C2 D N E2).
Qed.
Lemma last_entry_in k es v : last_entry k es = Some v -> exists e, In e es /\ snd e = v.
Proof.
  unfold last_entry. assert (G : forall a, fold_left (fun a e => match snd (fst e) with TmKw k' => if keyword_eqb k' k then Some (snd e) else a | _ => a end) es a = Some v ->
    a = Some v \/ exists e, In e es /\ snd e = v).
  { induction es as [|e es IH]; cbn; intros a H; [auto|]. destruct (IH _ H) as [E|(x & I & E)]; [|right; eauto].
    destruct (snd (fst e)); auto. destruct (keyword_eqb k0 k); auto. injection E as E. right. exists e. auto. }
  intros H. destruct (G _ H) as [E|E]; [discriminate|exact E].
Qed.
Lemma map_fine m c ap jm fm x : reached c -> part (JObj jm) doc -> expand_map io ld fin rnd pf o base_url rec m c ap jm fm = Ok x -> Forall fine (items x).
Proof.
  intros C P H. unfold expand_map in H. apply bind_ok in H. destruct H as (tsc & E1 & H). pose proof (context_reached _ _ _ _ _ C P E1) as T.
  apply bind_ok in H. destruct H as (ts & _ & H). apply bind_ok in H. destruct H as (c1 & E2 & H). pose proof (type_scoped_reached _ _ _ T E2) as C1.
  apply bind_ok in H. destruct H as (it & _ & H). apply bind_ok in H. destruct H as (es & E3 & H).
  pose proof (entries_ok c1 jm jm es C1 P (incl_refl _) E3) as Fe.
  assert (PE : forall k v, last_entry k es = Some v -> part v doc).
  { intros k v Lk. destruct (last_entry_in _ _ _ Lk) as (e & I & <-). apply (Forall_in _ _ _ Fe I). }
  destruct (if is_some ap && negb (ap_is ap KGraph) then last_entry KList es else None) as [l|] eqn:EL.
  { destruct (is_some ap && negb (ap_is ap KGraph)); [|discriminate]. apply bind_ok in H. destruct H as (i & _ & H). apply bind_ok in H. destruct H as (r & E & H).
    injection H as <-. constructor; [|constructor]; apply (list_fine i); refine (flat_forall _ _ _ _ E _); intros y ys I X; apply bind_ok in X; destruct X as (z & Ez & X);
      injection X as <-; exact (HR _ _ _ _ _ C1 (part_force _ _ _ (PE _ _ EL) I) Ez). }
  destruct (last_entry KSet es) as [s|] eqn:ES; [apply bind_ok in H; destruct H as (u & _ & H); exact (HR _ _ _ _ _ C1 (PE _ _ ES) H)|].
  destruct (last_entry KValue es) as [v|] eqn:EV.
  - apply bind_ok in H. destruct H as (r & E & H). injection H as <-. destruct r as [y|]; [|constructor]. constructor; [|constructor].
    unfold map_err in E. destruct (expand_value io o it tsc es v) eqn:E'; [|discriminate]. injection E as ->. exact (expand_value_fine _ _ _ _ _ T E').
  - apply bind_ok in H. destruct H as (r & E & H). injection H as <-. destruct r as [n|]; [|constructor]. constructor; [|constructor].
    apply node_fine. exact (expand_node_fine _ _ _ _ _ _ C1 T Fe E).
Qed.
Lemma scalar_fine c ap j x : reached c -> expand_scalar io ld pf o c ap j = Ok x -> Forall fine (items x).
Proof.
  intros C H. unfold expand_scalar in H. destruct (free_floating ap); [injection H as <-; constructor|]. apply bind_ok in H. destruct H as (c1 & E1 & H).
  assert (C1 : reached c1).
  { destruct (prop_def c ap) as [d|] eqn:D; [|injection E1 as <-; exact C].
    destruct (nd_context d) as [lc|] eqn:N; [|injection E1 as <-; exact C]. exact (scoped_reached _ _ _ _ _ _ _ C C D N E1). }
  destruct (given j) as [l|] eqn:G; [|discriminate]. apply bind_ok in H. destruct H as (y & E & H). injection H as <-. constructor; [|constructor].
  unfold map_err in E. destruct (expand_literal io o c1 ap l) eqn:E'; [|discriminate]. injection E as ->. refine (literal_fine _ _ _ _ C1 _ E').
  destruct j; try discriminate; injection G as <-; discriminate.
Qed.
Lemma body_fine m c ap j fm x : reached c -> part j doc -> element_body io ld fin rnd pf o base_url rec m c ap j fm = Ok x -> Forall fine (items x).
Proof.
  intros C P H. unfold element_body in H. destruct j; try exact (scalar_fine _ _ _ _ C H).
  - injection H as <-. constructor.
  - apply bind_ok in H. destruct H as (r & E & H). injection H as <-.
    assert (F : Forall fine r).
    { refine (flat_forall _ _ _ _ E _). intros y ys I X. apply bind_ok in X. destruct X as (z & Ez & X). injection X as <-. exact (HR _ _ _ _ _ C (part_item _ _ _ P I) Ez). }
    destruct (has_container _ _); [|exact F]. constructor; [apply (list_fine None), F|constructor].
  - exact (map_fine _ _ _ _ _ _ C P H).
Qed.
End Rec.

Lemma element_fine n : forall c ap j fm x, reached c -> part j doc -> expand_element io ld fin rnd pf o base_url n c ap j fm = Ok x -> Forall fine (items x).
Proof. induction n as [|n IH]; intros c ap j fm x C P H; [discriminate|]. exact (body_fine _ IH _ _ _ _ _ _ C P H). Qed.

(** *** No values at the top level *)
Definition upper (x : iobj) : Prop := forall n, snd x = ONode n -> Forall (fun y => top_level y = true) (opt_list (n_graph n)).
Definition upper_node (n : node) : Prop := Forall (fun y => top_level y = true) (opt_list (n_graph n)).
Lemma graph_entry self ap c tsc s key k v s' r :
  (forall c es s s', upper_node (snd (fst s)) -> self c es s = Ok s' -> upper_node (snd (fst s'))) -> upper_node (snd (fst s)) ->
  keyword_entry io ld fin rnd pf o r self ap c tsc s key k v = Ok s' -> upper_node (snd (fst s')).
Proof.
  intros HS F H. destruct s as [[si sn] sb]. unfold keyword_entry in H. cbn zeta in H. destruct (ap_is ap KReverse); [discriminate|].
  match type of H with (if ?b then _ else _) = _ => destruct b end; [discriminate|].
  destruct k; try (injection H as <-; exact F); try discriminate.
  - apply bind_ok in H. destruct H as (x & E & H). injection H as <-. unfold upper_node. destruct sn. cbn [on_node fst snd set_ngraph n_graph opt_list].
    apply set_sub; [|constructor]. apply Forall_forall. intros y I. apply filter_In in I. apply I.
  - destruct (as_str v) as [i|]; [|discriminate]. apply bind_ok in H. destruct H as (t & E & H). injection H as <-. unfold upper_node in *. destruct sn. exact F.
  - destruct (xo_mode o); [injection H as <-; exact F|]. apply bind_ok in H. destruct H as (x & E & H). apply bind_ok in H. destruct H as (l & El & H).
    injection H as <-. unfold upper_node in *. destruct sn. exact F.
  - destruct (as_str v); [|discriminate]. injection H as <-. exact F.
  - refine (fold_inv_r _ (fun s => upper_node (snd (fst s))) _ _ _ H F _). intros a x a' I Fa E. unfold nest_entry in E. apply bind_ok in E. destruct E as (c1 & _ & E).
    destruct x; try discriminate. apply bind_ok in E. destruct E as (es & _ & E). exact (HS _ _ _ _ Fa E).
  - destruct v; try discriminate. apply bind_ok in H. destruct H as (n & E & H). injection H as <-. cbn.
    refine (fold_inv_r _ upper_node _ _ _ E F _). intros a e a' I Fa E'. unfold reverse_entry in E'. destruct e as [k x].
    apply bind_ok in E'. destruct E' as (t & _ & E').
    destruct t as [[|p|kw]|]; try discriminate; try (destruct (_ || _); [discriminate|injection E' as <-; exact Fa]).
    destruct (id_has_colon p); [|destruct (_ || _); [discriminate|injection E' as <-; exact Fa]].
    apply bind_ok in E'. destruct E' as (b & _ & E'). destruct (negb b); [injection E' as <-; exact Fa|].
    apply bind_ok in E'. destruct E' as (y & _ & E'). destruct (match prop_def c (Some k) with Some d => nd_reverse d | None => false end);
      [|apply bind_ok in E'; destruct E' as (l' & _ & E')]; injection E' as <-; unfold upper_node in *; destruct a; exact Fa.
  - apply bind_ok in H. destruct H as (n & E & H). injection H as <-. cbn.
    refine (fold_inv_r _ upper_node _ _ _ E F _). intros a t a' _ Fa E'. destruct (as_str t) as [s0|]; [|discriminate].
    apply bind_ok in E'. destruct E' as (u & _ & E'). destruct u as [u|]; [|injection E' as <-; exact Fa]. destruct (id_of_term u); try discriminate.
    apply bind_ok in E'. destruct E' as (b & _ & E'). injection E' as <-. destruct b; [|exact Fa]. unfold upper_node in *. destruct a. exact Fa.
Qed.
Lemma graph_property r c key p v n n' : upper_node n -> property_entry io ld fin rnd pf o r c key p v n = Ok n' -> upper_node n'.
Proof.
  intros F H. unfold property_entry in H. destruct (id_has_colon p).
  - apply bind_ok in H. destruct H as (b & _ & H). destruct (negb b); [injection H as <-; exact F|]. apply bind_ok in H. destruct H as (x & E & H).
    cbn zeta in H. unfold store in H. destruct (wrap_graph fin rnd _ _) as [|y|l]; [injection H as <-; exact F| |];
      (destruct (match prop_def c (Some key) with Some d => nd_reverse d | None => false end);
       [apply bind_ok in H; destruct H as (q & _ & H)|]; injection H as <-; unfold upper_node in *; destruct n; exact F).
  - apply bind_ok in H. destruct H as (b & _ & H). destruct (xo_allow_undefined o); [injection H as <-; exact F|discriminate].
Qed.
Lemma graph_entries r m ap tsc : forall c es s s', upper_node (snd (fst s)) -> node_entries io ld fin rnd pf o r m ap tsc c es s = Ok s' -> upper_node (snd (fst s')).
Proof.
  induction m as [|m IH]; intros c es s s' F H; [discriminate|]. cbn [node_entries] in H.
  refine (fold_inv_r _ (fun s => upper_node (snd (fst s))) _ _ _ H F _). intros a [[key t] v] a' I Fa E.
  unfold node_entry in E. destruct t as [|p|k]; [injection E as <-; exact Fa| |].
  - apply bind_ok in E. destruct E as (n & E & X). injection X as <-. exact (graph_property _ _ _ _ _ _ _ Fa E).
  - destruct k; try exact (graph_entry _ _ _ _ _ _ _ _ _ _ IH Fa E). injection E as <-. exact Fa.
Qed.
Lemma element_upper n : forall c ap j fm x, expand_element io ld fin rnd pf o base_url n c ap j fm = Ok x -> Forall upper (items x).
Proof.
  induction n as [|n IH]; intros c ap j fm x H; [discriminate|]. cbn [expand_element] in H. unfold element_body in H.
  assert (SC : forall j, expand_scalar io ld pf o c ap j = Ok x -> Forall upper (items x)).
  { intros j0 H0. unfold expand_scalar in H0. destruct (free_floating ap); [injection H0 as <-; constructor|]. apply bind_ok in H0. destruct H0 as (c1 & _ & H0).
    destruct (given j0) as [l|]; [|discriminate]. apply bind_ok in H0. destruct H0 as (y & E & H0). injection H0 as <-. constructor; [|constructor].
    unfold map_err in E. destruct (expand_literal io o c1 ap l) as [y'|] eqn:E'; [|discriminate]. injection E as ->. intros n0 N. unfold expand_literal in E'. cbn zeta in E'.
    repeat match type of E' with context [match ?b with _ => _ end] => destruct b; try discriminate E' end;
    try (injection E' as <-; discriminate N);
    try (injection E' as <-; injection N as <-; constructor);
    apply bind_ok in E'; destruct E' as (t & _ & E'); injection E' as <-; injection N as <-; constructor. }
  destruct j; try exact (SC _ H).
  - injection H as <-. constructor.
  - apply bind_ok in H. destruct H as (r & E & H). injection H as <-. destruct (has_container _ _); [constructor; [intros ? ?; discriminate|constructor]|].
    refine (flat_forall _ _ _ _ E _). intros y ys I X. apply bind_ok in X. destruct X as (z & Ez & X). injection X as <-. exact (IH _ _ _ _ _ Ez).
  - unfold expand_map in H. apply bind_ok in H. destruct H as (tsc & E1 & H).
    apply bind_ok in H. destruct H as (ts & _ & H). apply bind_ok in H. destruct H as (c1 & E2 & H).
    apply bind_ok in H. destruct H as (it & _ & H). apply bind_ok in H. destruct H as (es & E3 & H).
    destruct (if is_some ap && negb (ap_is ap KGraph) then last_entry KList es else None).
    { apply bind_ok in H. destruct H as (i & _ & H). apply bind_ok in H. destruct H as (r & E & H). injection H as <-. constructor; [intros ? ?; discriminate|constructor]. }
    destruct (last_entry KSet es); [apply bind_ok in H; destruct H as (u & _ & H); exact (IH _ _ _ _ _ H)|].
    destruct (last_entry KValue es) as [v|].
    + apply bind_ok in H. destruct H as (r & E & H). injection H as <-. destruct r as [y|]; [|constructor]. constructor; [|constructor].
      unfold map_err in E. destruct (expand_value io o it tsc es v) as [z|] eqn:E'; [|discriminate]. injection E as ->. intros n0 N. unfold expand_value in E'. cbn zeta in E'.
      apply bind_ok in E'. destruct E' as (s & _ & E').
      repeat match type of E' with context [match ?b with _ => _ end] => destruct b; try discriminate E' end; injection E' as <-; discriminate N.
    + apply bind_ok in H. destruct H as (r & E & H). injection H as <-. destruct r as [y|]; [|constructor]. constructor; [|constructor].
      intros n0 N. injection N as <-. unfold expand_node in E. apply bind_ok in E. destruct E as ([r hv] & E & X).
      pose proof (graph_entries _ n ap tsc c1 es ((None, node_new None), false) (r, hv) (Forall_nil _) E) as U.
      destruct (_ && _ && _); [discriminate|]. destruct (_ && _ && _); [discriminate|]. injection X as <-. exact U.
Qed.
Lemma expand_top n l : expand io ld fin rnd pf o base_url n c0 doc = Ok l -> Forall (fun y => top_level y = true) l.
Proof.
  intros H. unfold expand in H. apply bind_ok in H. destruct H as (x & E & H). pose proof (element_upper _ _ _ _ _ _ E) as F. injection H as <-.
  assert (G : Forall (fun y => top_level y = true) (filter top_level (items x))).
  { apply Forall_forall. intros y I. apply filter_In in I. apply I. }
  destruct (items x) as [|y [|z r]]; [constructor| |apply set_sub; [exact G|constructor]].
  destruct (unnamed_graph y) as [g|] eqn:U.
  - unfold unnamed_graph in U. inversion F as [|? ? Fy _]; subst. destruct (snd y) eqn:Sy; try discriminate. destruct (_ && _); [|discriminate].
    pose proof (Fy _ Sy) as Q. rewrite U in Q. exact Q.
  - destruct (top_level y) eqn:T; [repeat constructor; exact T|constructor].
Qed.

Theorem expand_fine n l : expand io ld fin rnd pf o base_url n c0 doc = Ok l -> Forall fine l /\ (distinct same_i l).
Proof.
  intros H. unfold expand in H. apply bind_ok in H. destruct H as (x & E & H). pose proof (element_fine _ _ _ _ _ _ (RcSelf _ _ _ _ _ _) (PaSelf _) E) as F.
  assert (G : Forall fine (filter top_level (items x))).
  { apply Forall_forall. intros y I. apply filter_In in I. exact (Forall_in _ _ _ F (proj1 I)). }
  injection H as <-. destruct (items x) as [|y [|z r]]; [apply oset_fine, G| |apply oset_fine, G].
  destruct (unnamed_graph y) as [g|] eqn:U.
  - unfold unnamed_graph in U. destruct (snd y) eqn:Sy; try discriminate. destruct (_ && _); [|discriminate].
    inversion F as [|? ? [Gy Wy] _]; subst. rewrite Sy in Gy, Wy. inversion Gy as [|? Gn|]; inversion Wy as [|? Wn|]; subst.
    destruct n0 as [i ts g0 inc ps rs]. cbn in U. subst g0. inversion Gn; inversion Wn; subst. cbn [opt_list] in *. split; [|assumption].
    apply Forall_forall. intros w I. split; [match goal with A : Forall (fun x => good (snd x)) _ |- _ => exact (Forall_in _ _ _ A I) end|]. match goal with A : Forall (fun x => wf (snd x)) _ |- _ => exact (Forall_in _ _ _ A I) end.
  - destruct (top_level y); [apply oset_fine, F|split; constructor].
Qed.
End Ok.

(** Well-formed objects can be written in JSON and read back. *)
Lemma colon_not_reserved s : contains_char ":" s = true -> ~ In s reserved.
Proof. intros H I. cbn in I. repeat (destruct I as [<-|I]; [discriminate H|]). exact I. Qed.
Lemma good_printable io (K : id -> Prop) : id_laws io -> (forall p, K p -> ~ In (id_str p) reserved) ->
  (forall x, good io K x -> no_included x -> printable io x) /\ (forall n, good_node io K n -> no_included_node n -> printable_node io n).
Proof.
  intros L HK. apply obj_node_ind.
  - intros v G _. inversion G as [? [l t _ T|s T|j]| |]; subst; constructor; constructor; try assumption.
    intros t' E. split; [exact (T _ E)|]. intros ->. pose proof (iri_colon io L _ (T _ E)) as X. discriminate X.
  - intros n IH G N. inversion G; inversion N; subst. constructor. auto.
  - intros l IH G N. inversion G as [| |? Gl]; inversion N as [| |? Nl]; subst. constructor. revert Gl Nl. clear - IH. induction IH; intros A B; [constructor|]. inversion A; inversion B; subst. constructor; auto.
  - intros i ts g inc ps rs IHg IHi IHp IHr G N. inversion G as [? ? ? ? ? ? G1 G2 G3 G4 G5 G6 G7]; inversion N as [? ? ? ? ? N4 N6 N7]; subst. constructor; try assumption.
    + revert G4 N4. clear - IHg. induction IHg; intros A B; [constructor|]. inversion A; inversion B; subst. constructor; auto.
    + revert G6 N6. clear - IHp HK. induction IHp as [|[k v] ps X Y IH]; intros A B; [constructor|]. inversion A as [|? ? (A1 & A2 & A3) A4]; inversion B as [|? ? B1 B2]; subst. constructor; auto.
      split; [exact A1|]. split; [exact (HK _ A2)|]. cbn [snd] in *. revert A3 B1. clear - X. induction X; intros A B; [constructor|]. inversion A; inversion B; subst. constructor; auto.
    + revert G7 N7. clear - IHr. induction IHr as [|[k v] ps X Y IH]; intros A B; [constructor|]. inversion A as [|? ? (A1 & A2 & A3) A4]; inversion B as [|? ? B1 B2]; subst. constructor; auto.
      split; [exact A1|]. cbn [snd] in *. revert A3 B1. clear - X. induction X; intros A B; [constructor|]. inversion A; inversion B; subst. constructor; auto.
Qed.

Lemma good_weaken io (K K' : id -> Prop) : (forall p, K p -> K' p) ->
  (forall x, good io K x -> good io K' x) /\ (forall n, good_node io K n -> good_node io K' n).
Proof.
  intros HK. apply obj_node_ind.
  - intros v G. inversion G; subst. constructor. assumption.
  - intros n IH G. inversion G; subst. constructor. auto.
  - intros l IH G. inversion G as [| |? Gl]; subst. constructor. revert Gl. clear - IH. induction IH; intros A; [constructor|]. inversion A; subst. constructor; auto.
  - intros i ts g inc ps rs IHg IHi IHp IHr G. inversion G as [? ? ? ? ? ? G1 G2 G3 G4 G5 G6 G7]; subst. constructor; try assumption.
    + revert G4. clear - IHg. induction IHg; intros A; [constructor|]. inversion A; subst. constructor; auto.
    + revert G5. clear - IHi. induction IHi; intros A; [constructor|]. inversion A; subst. constructor; auto.
    + revert G6. clear - IHp HK. induction IHp as [|[k v] ps X Y IH]; intros A; [constructor|]. inversion A as [|? ? (A1 & A2 & A3) A4]; subst. constructor; auto.
      split; [exact A1|]. split; [exact (HK _ A2)|]. cbn [snd] in *. revert A3. clear - X. induction X; intros A; [constructor|]. inversion A; subst. constructor; auto.
    + revert G7. clear - IHr. induction IHr as [|[k v] ps X Y IH]; intros A; [constructor|]. inversion A as [|? ? (A1 & A2 & A3) A4]; subst. constructor; auto.
      split; [exact A1|]. split; [exact A2|]. cbn [snd] in *. revert A3. clear - X. induction X; intros A; [constructor|]. inversion A; subst. constructor; auto.
Qed.

(** The main node of a document: [main_node] and [into_main_node] of core/src/document/expanded.rs. *)
From Verif Require Import Prelude Json Enums LangTag LangString Str Keyword Container ContextSyntax Ctx Object ObjectEq ObjectJson Relabel MapIds Processor.

(** expanded.rs 217-231 ([main_node]) and 237-251 ([into_main_node]), which differ only in what they borrow; [r] is the
    variable [result]. *)
Fixpoint main_loop (r : option node) (d : list iobj) : option node :=
  match d with
  | [] => r
  | x :: d' =>
      match snd x with
      | ONode n => match r with Some _ => None | None => main_loop (Some n) d' end
      | _ => main_loop r d'
      end
  end.
Definition main_node (d : list iobj) : option node := main_loop None d.

(** expanded.rs 162-172 ([canonicalize_with]). *)
Definition canonicalize (fin rnd : list word -> N) (ci : canon_io) (d : list iobj) : list iobj :=
  collect_o fin rnd (map (fun x => (fst x, canon_o ci (snd x))) d).

(** ** Specification *)

(** The object [x] is a node object. *)
Definition is_a_node (x : iobj) : Prop := exists n, snd x = ONode n.
(** The node [n] is at the root of the document, and no other node is. *)
Definition only_node (d : list iobj) (n : node) : Prop :=
  exists before index after, d = before ++ (index, ONode n) :: after /\ forall x, In x (before ++ after) -> ~ is_a_node x.
(** Several nodes are at the root of the document. *)
Definition many_nodes (d : list iobj) : Prop :=
  exists before x between y after, d = before ++ x :: between ++ y :: after /\ is_a_node x /\ is_a_node y.

(** ** Proof *)
Fixpoint roots (d : list iobj) : list node :=
  match d with [] => [] | x :: d' => match snd x with ONode n => n :: roots d' | _ => roots d' end end.
Lemma main_roots d : main_node d = match roots d with [n] => Some n | _ => None end.
Proof.
  assert (S : forall l n, main_loop (Some n) l = match roots l with [] => Some n | _ => None end).
  { induction l as [|x l IH]; intros n; cbn; [reflexivity|]. destruct (snd x); auto. }
  unfold main_node. induction d as [|x d IH]; cbn; [reflexivity|]. destruct (snd x); [exact IH|rewrite S; destruct (roots d); reflexivity|exact IH].
Qed.
Lemma roots_app a b : roots (a ++ b) = roots a ++ roots b.
Proof. induction a as [|x a IH]; cbn; [reflexivity|]. destruct (snd x); cbn; congruence. Qed.
Lemma roots_nil d : roots d = [] <-> forall x, In x d -> ~ is_a_node x.
Proof.
  induction d as [|x d IH]; cbn; [split; [intros _ ? []|reflexivity]|]. destruct (snd x) as [v|n|l] eqn:E; try (rewrite IH; split; [|auto]).
  - intros H y [<-|I]; [intros (m & X); congruence|auto].
  - split; [discriminate|]. intros H. exfalso. apply (H x (or_introl eq_refl)). exists n. exact E.
  - intros H y [<-|I]; [intros (m & X); congruence|auto].
Qed.
Lemma roots_cons d n l : roots d = n :: l -> exists a i b, d = a ++ (i, ONode n) :: b /\ roots a = [] /\ roots b = l.
Proof.
  induction d as [|[i o] d IH]; cbn; [discriminate|]. destruct o as [v|m|k].
  - intros H. destruct (IH H) as (a & j & b & -> & A & B). exists ((i, OVal v) :: a), j, b. auto.
  - intros [= -> <-]. exists [], i, d. auto.
  - intros H. destruct (IH H) as (a & j & b & -> & A & B). exists ((i, OList k) :: a), j, b. auto.
Qed.
Lemma main_only d n : main_node d = Some n <-> only_node d n.
Proof.
  rewrite main_roots. split.
  - destruct (roots d) as [|m [|? ?]] eqn:R; try discriminate. intros [= ->]. destruct (roots_cons _ _ _ R) as (a & i & b & -> & A & B).
    exists a, i, b. split; [reflexivity|]. apply roots_nil. rewrite roots_app, A, B. reflexivity.
  - intros (a & i & b & -> & H). apply roots_nil in H. rewrite roots_app in H. apply app_eq_nil in H. destruct H as [A B]. rewrite roots_app. cbn. rewrite A, B. reflexivity.
Qed.
Lemma main_none d : main_node d = None <-> (forall x, In x d -> ~ is_a_node x) \/ many_nodes d.
Proof.
  rewrite main_roots. split.
  - destruct (roots d) as [|n [|m l]] eqn:R; [intros _; left; apply roots_nil, R|discriminate|]. intros _. right.
    destruct (roots_cons _ _ _ R) as (a & i & b & -> & A & B). destruct (roots_cons _ _ _ B) as (a' & j & b' & -> & A' & B').
    exists a, (i, ONode n), a', (j, ONode m), b'. split; [reflexivity|]. split; [exists n|exists m]; reflexivity.
  - intros [H|(a & x & b & y & c & -> & (n & X) & m & Y)]; [apply roots_nil in H; rewrite H; reflexivity|].
    rewrite roots_app. cbn. rewrite X, roots_app. cbn. rewrite Y. destruct (roots a) as [|? [|? ?]], (roots b) as [|? ?]; reflexivity.
Qed.

(** Collecting into a set keeps the only node. *)
Lemma insert_roots h (e : iobj -> iobj -> bool) s x : (forall y n, snd x = ONode n -> e y x = true -> is_a_node y) ->
  (roots s = [] -> roots (set_insert h e s x) = roots [x]) /\ ((forall n, snd x <> ONode n) -> roots (set_insert h e s x) = roots s).
Proof.
  intros He. unfold set_insert. destruct (existsb _ s) eqn:E.
  - apply existsb_exists in E. destruct E as (y & I & E). apply andb_prop in E. destruct E as [_ E]. split; [|reflexivity]. intros R. rewrite R. cbn.
    destruct (snd x) as [v|n|l] eqn:X; try reflexivity. exfalso. exact (proj1 (roots_nil s) R y I (He y n eq_refl E)).
  - split; intros H; rewrite roots_app.
    + rewrite H. reflexivity.
    + cbn. destruct (snd x) as [v|n|l]; try apply app_nil_r. contradiction (H n). reflexivity.
Qed.
Lemma fold_roots h (e : iobj -> iobj -> bool) : (forall x y n, snd x = ONode n -> e y x = true -> is_a_node y) -> forall l s n,
  roots s ++ roots l = [n] -> roots (fold_left (set_insert h e) l s) = [n].
Proof.
  intros He. induction l as [|x l IH]; intros s n H; cbn [fold_left]; [rewrite <- H, app_nil_r; reflexivity|]. apply IH.
  destruct (insert_roots h e s x (He x)) as [A B]. cbn [roots] in *. destruct (snd x) as [v|m|k] eqn:X.
  - rewrite B by discriminate. exact H.
  - destruct (roots s) as [|y r] eqn:R; [|destruct r; discriminate]. rewrite (A eq_refl). exact H.
  - rewrite B by discriminate. exact H.
Qed.
Lemma eqb_node fin rnd x y n : snd x = ONode n -> iobj_eqb fin rnd y x = true -> is_a_node y.
Proof.
  intros X H. unfold iobj_eqb in H. apply andb_prop in H. destruct H as [_ H]. rewrite X in H. destruct (snd y) as [v|m|l] eqn:Y; [discriminate|exists m; exact Y|discriminate].
Qed.
Lemma mapped_roots (f : obj -> obj) (g : node -> node) d : (forall o, match o with ONode n => f o = ONode (g n) | _ => forall n, f o <> ONode n end) ->
  roots (map (fun x => (fst x, f (snd x))) d) = map g (roots d).
Proof.
  intros H. induction d as [|x d IH]; cbn; [reflexivity|]. specialize (H (snd x)). destruct (snd x) as [v|n|l].
  - destruct (f (OVal v)) as [v'|n'|l']; [exact IH|contradiction (H n'); reflexivity|exact IH].
  - rewrite H. cbn. rewrite IH. reflexivity.
  - destruct (f (OList l)) as [v'|n'|l']; [exact IH|contradiction (H n'); reflexivity|exact IH].
Qed.
Lemma main_mapped fin rnd h (f : obj -> obj) (g : node -> node) d n : (forall o, match o with ONode n => f o = ONode (g n) | _ => forall n, f o <> ONode n end) ->
  main_node d = Some n -> main_node (fold_left (set_insert h (iobj_eqb fin rnd)) (map (fun x => (fst x, f (snd x))) d) []) = Some (g n).
Proof.
  intros F. rewrite !main_roots. destruct (roots d) as [|m [|? ?]] eqn:R; try discriminate. intros [= ->].
  rewrite (fold_roots h _ (eqb_node fin rnd) _ [] (g n)); [reflexivity|]. cbn. rewrite (mapped_roots f g d F), R. reflexivity.
Qed.
(** Documents that differ in names only. *)
Lemma ren_roots f d d' A : ren_doc f d d' A -> Forall2 (fun n n' => exists B, ren_node f n n' B /\ incl B A) (roots d) (roots d').
Proof.
  unfold ren_doc. induction 1 as [|x y l l' A B [E R] _ IH]; cbn; [constructor|].
  assert (IH' : Forall2 (fun n n' => exists C, ren_node f n n' C /\ incl C (A ++ B)) (roots l) (roots l')).
  { clear -IH. induction IH as [|n n' k k' (C & X & I) _ IH]; constructor; [|exact IH]. exists C. split; [exact X|]. apply incl_appr, I. }
  inversion R; subst; try assumption. constructor; [|assumption]. eexists. split; [eassumption|]. apply incl_appl, incl_refl.
Qed.
Lemma ren_main f d d' A : ren_doc f d d' A ->
  match main_node d, main_node d' with
  | Some n, Some n' => exists B, ren_node f n n' B /\ incl B A
  | None, None => True
  | _, _ => False
  end.
Proof.
  intros H. apply ren_roots in H. rewrite !main_roots. destruct H as [|n n' l l' X H]; [exact I|]. destruct H as [|m m' l l' Y H]; [exact X|exact I].
Qed.

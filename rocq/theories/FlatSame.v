(** What an entry stands for is determined up to the order of the properties of nested nodes. *)
From Verif Require Import Prelude Json Str Keyword Enums LangTag LangString Container Stack ContextSyntax Ctx Process Cycles CompactIriRead
  Object ObjectJson CompactIri Expand Samples Flat FlatDoc.

(** ** Specification *)

(** An object of an entry: related, or lists of related objects. *)
Definition item (A : iobj -> iobj -> Prop) (x x' : iobj) : Prop :=
  A x x' \/ exists xs xs', x = (None, OList xs) /\ x' = (None, OList xs') /\ Forall2 A xs xs'.
(** The same, or nodes nested up to a depth that differ in the order of their properties. *)
Fixpoint alike (d : nat) (x x' : iobj) : Prop :=
  x = x' \/
  match d with
  | O => False
  | S d => exists r r', x = (None, ONode r) /\ x' = (None, ONode r') /\ n_id r = n_id r' /\ n_types r = n_types r' /\ n_graph r = n_graph r' /\
      n_included r = n_included r' /\ n_reverse r = n_reverse r' /\
      (forall p, is_some (get_id p (n_props r)) = is_some (get_id p (n_props r'))) /\
      forall p, Forall2 (item (alike d)) (opt_list (get_id p (n_props r))) (opt_list (get_id p (n_props r')))
  end.

(** ** Proof *)

Inductive eff_like (A : iobj -> iobj -> Prop) : effect -> effect -> Prop :=
| like_nothing : eff_like A Nothing Nothing
| like_named i : eff_like A (Named i) (Named i)
| like_typed ts : eff_like A (Typed ts) (Typed ts)
| like_has p xs xs' : Forall2 (item A) xs xs' -> eff_like A (Has p xs) (Has p xs').

Lemma like_effects A es es' : Forall2 (eff_like A) es es' -> names es = names es' /\ typings es = typings es' /\ (forall p, mentioned p es = mentioned p es') /\ forall p, Forall2 (item A) (objects p es) (objects p es').
Proof.
  intros H. induction H as [|e e' es es' E _ (N & T & Q & P)]; [repeat split; constructor|]. unfold names, typings, objects, mentioned in *. cbn [flat_map existsb]. rewrite N, T.
  destruct E as [|i|ts|q xs xs' X]; (split; [reflexivity|]); (split; [reflexivity|]); (split; [intros p; rewrite Q; reflexivity|]); intros p; cbn [app]; try apply P. apply Forall2_app; [destruct (id_eqb q p); [exact X|constructor]|apply P].
Qed.

Section Same.
Variable io : iops.
Variable l : list (string * nullable tdef).
Hypothesis F : flat io l.

Lemma scalar_fun v y x x' : says_scalar io l v y x -> says_scalar io l v y x' -> x = x'.
Proof.
  intros W W'. inversion W; subst; inversion W'; subst; try reflexivity; try congruence; try (exfalso; match goal with D : _ \/ _ |- _ => destruct D; congruence end).
  match goal with A : means io l ?s ?a, B : means io l ?s ?b |- _ => rewrite (means_fun _ _ _ _ _ A B) end. reflexivity.
Qed.
Lemma type_fun y i i' : says_type io l y i -> says_type io l y i' -> i = i'.
Proof.
  assert (X : forall s i v, means io l s i -> assoc s l = Some v -> False).
  { intros s i0 v M A. destruct (F _ _ A) as (_ & C & _). destruct (means_colon _ _ _ _ M) as (p & x & E & _ & _). rewrite E, contains_colon in C. discriminate C. }
  intros W W'. destruct W as [s i M|k v s i K A TX M]; inversion W' as [s' i2 M' E1|k' v' s' i2 K' A' TX' M' E1]; subst.
  - rewrite (means_fun _ _ _ _ _ M' M). reflexivity.
  - exfalso. exact (X _ _ _ M A').
  - exfalso. exact (X _ _ _ M' A).
  - rewrite A in A'. injection A' as <-. rewrite TX in TX'. injection TX' as <-. rewrite (means_fun _ _ _ _ _ M' M). reflexivity.
Qed.

Section Step.
Variable V : nullable tdef -> json -> iobj -> Prop.
Variable A : iobj -> iobj -> Prop.
Hypothesis VF : forall v y x x', V v y x -> V v y x' -> A x x'.
Hypothesis VA : forall v ys x, ~ V v (JArr ys) x.
Hypothesis VN : forall v x, ~ V v JNull x.

Lemma values_like v y xs xs' : says_values (V v) y xs -> says_values (V v) y xs' -> Forall2 A xs xs'.
Proof.
  intros [y' x W|ys ws W] H; inversion H as [y2 x2 W2|ys2 ws2 W2]; subst.
  - constructor; [eapply VF; eassumption|constructor].
  - exfalso. exact (VA _ _ _ W).
  - exfalso. exact (VA _ _ _ W2).
  - clear H. revert xs' W2. induction W as [|ys ws _ IH|y1 x1 ys ws W _ IH]; intros xs' W2; inversion W2; subst; try (exfalso; eapply VN; eassumption); try constructor; eauto.
Qed.
Lemma entry_like e ef ef' : says_entry io l V e ef -> says_entry io l V e ef' -> eff_like A ef ef'.
Proof.
  intros E E'. destruct E as [k v s i y xs K B TX M W|k v K B LS|s i M|y ts S].
  - inversion E' as [k' v' s' i' y' xs' K' B' TX' M' W'|k' v' K' B' LS'|s' i' M'|y' ts' S']; subst; [|exfalso|discriminate K|discriminate K].
    + rewrite B in B'. injection B' as <-. rewrite TX in TX'. injection TX' as <-. rewrite (means_fun _ _ _ _ _ M' M). constructor.
      pose proof (values_like v y xs xs' W W') as X. destruct (lists v); [constructor; [right; eauto|constructor]|]. clear - X. induction X; constructor; [left; assumption|assumption].
    + inversion W as [y' x' W1|]; subst. exact (VN _ _ W1).
  - inversion E' as [k' v' s' i' y' xs' K' B' TX' M' W'|k' v' K' B' LS'|s' i' M'|y' ts' S']; subst; [exfalso|constructor|discriminate K].
    inversion W' as [y' x' W1|]; subst. exact (VN _ _ W1).
  - inversion E' as [k' v' s' i' y' xs' K' B' TX' M' W'|k' v' K' B' LS'|s' i' M'|y' ts' S']; subst; [discriminate K'|]. rewrite (means_fun _ _ _ _ _ M' M). constructor.
  - inversion E' as [k' v' s' i' y' xs' K' B' TX' M' W'|k' v' K' B' LS'|s' i' M'|y' ts' S']; subst; [discriminate K'|discriminate K'|].
    assert (X : ts = ts'); [|rewrite X; constructor]. unfold says_types in *. clear E'. revert ts' S'. induction S as [|a i a' w W _ IH]; intros ts' S'; inversion S'; subst; [reflexivity|]. f_equal; [eapply type_fun; eassumption|eauto].
Qed.
Lemma entries_like m es es' : Forall2 (says_entry io l V) m es -> Forall2 (says_entry io l V) m es' -> Forall2 (eff_like A) es es'.
Proof. intros H. revert es'. induction H as [|e ef m es E _ IH]; intros es' H'; inversion H'; subst; constructor; [eapply entry_like; eassumption|auto]. Qed.
End Step.

Lemma value_not_array d v ys x : ~ says_value io l d v (JArr ys) x.
Proof. destruct d; intros [W|W]; try (inversion W; fail). destruct W as (m & es & r & E & _). discriminate E. Qed.
Lemma value_not_null d v x : ~ says_value io l d v JNull x.
Proof. destruct d; intros [W|W]; try (inversion W; fail). destruct W as (m & es & r & E & _). discriminate E. Qed.
Lemma value_alike d : forall v y x x', says_value io l d v y x -> says_value io l d v y x' -> alike d x x'.
Proof.
  induction d as [|d IH]; intros v y x x' [W|W] [W'|W']; try (destruct W; fail); try (destruct W'; fail); try (left; eapply scalar_fun; eassumption).
  - exfalso. destruct W' as (m & es & r & -> & _). inversion W.
  - exfalso. destruct W as (m & es & r & -> & _). inversion W'.
  - destruct W as (m & es & r & -> & -> & _ & H & (S1 & I & T & G & N & R & Q & P)), W' as (m' & es' & r' & E & -> & _ & H' & (S1' & I' & T' & G' & N' & R' & Q' & P')). injection E as <-.
    destruct (like_effects _ _ _ (entries_like _ (alike d) IH (value_not_array d) (value_not_null d) m es es' H H')) as (NM & TY & ME & OB).
    right. exists r, r'. split; [reflexivity|]. split; [reflexivity|]. split; [congruence|]. split; [rewrite T, T', TY; reflexivity|]. split; [congruence|]. split; [congruence|]. split; [congruence|].
    split; [intros p; rewrite Q, Q'; apply ME|]. intros p. rewrite P, P'. apply OB.
Qed.
End Same.

Lemma alike_0 xs xs' : Forall2 (item (alike 0)) xs xs' -> xs = xs'.
Proof.
  assert (X : forall x x', alike 0 x x' -> x = x') by (intros x x' [E|[]]; exact E).
  intros H. induction H as [|x x' xs xs' I _ IH]; [reflexivity|]. f_equal; [|exact IH]. destruct I as [E|(w & w' & -> & -> & W)]; [exact (X _ _ E)|].
  do 2 f_equal. induction W; [reflexivity|]. f_equal; auto.
Qed.

(** Being alike is an equivalence. *)
Lemma alike_list d x w : alike d x (None, OList w) -> x = (None, OList w).
Proof. destruct d; intros [E|E]; try exact E; [destruct E|]. destruct E as (r & r' & _ & E & _). discriminate E. Qed.
Lemma alike_list' d x w : alike d (None, OList w) x -> x = (None, OList w).
Proof. destruct d; intros [E|E]; try (symmetry; exact E); [destruct E|]. destruct E as (r & r' & E & _). discriminate E. Qed.
Lemma forall2_sym {A} (R : A -> A -> Prop) xs ys : (forall x y, R x y -> R y x) -> Forall2 R xs ys -> Forall2 R ys xs.
Proof. intros S H. induction H; constructor; auto. Qed.
Lemma forall2_trans {A} (R : A -> A -> Prop) xs ys zs : (forall x y z, R x y -> R y z -> R x z) -> Forall2 R xs ys -> Forall2 R ys zs -> Forall2 R xs zs.
Proof. intros T H. revert zs. induction H; intros zs H'; inversion H'; subst; constructor; eauto. Qed.
Lemma item_sym (A : iobj -> iobj -> Prop) x y : (forall x y, A x y -> A y x) -> item A x y -> item A y x.
Proof. intros S [H|(xs & ys & -> & -> & H)]; [left; auto|]. right. exists ys, xs. split; [reflexivity|]. split; [reflexivity|]. apply forall2_sym; assumption. Qed.
Lemma alike_sym d : forall x y, alike d x y -> alike d y x.
Proof.
  induction d as [|d IH]; intros x y [E|E]; try (left; symmetry; exact E); [destruct E|]. destruct E as (r & r' & -> & -> & I & T & G & C & R & Q & P).
  right. exists r', r. do 7 (split; [congruence|]). split; [intros p; symmetry; apply Q|]. intros p. apply forall2_sym; [|apply P]. intros a b. apply item_sym, IH.
Qed.
Lemma item_trans d x y z : (forall x y z, alike d x y -> alike d y z -> alike d x z) -> item (alike d) x y -> item (alike d) y z -> item (alike d) x z.
Proof.
  intros T [H|(xs & ys & -> & -> & H)] [H'|(ys' & zs & E & -> & H')].
  - left. eauto.
  - subst y. rewrite (alike_list d x ys' H). right. exists ys', zs. auto.
  - rewrite (alike_list' d z ys H'). right. exists xs, ys. auto.
  - injection E as <-. right. exists xs, zs. split; [reflexivity|]. split; [reflexivity|]. exact (forall2_trans _ xs ys zs T H H').
Qed.
Lemma alike_trans d : forall x y z, alike d x y -> alike d y z -> alike d x z.
Proof.
  induction d as [|d IH]; intros x y z [E|E] [E'|E']; try (destruct E; fail); try (destruct E'; fail); try (left; congruence); try (subst; right; assumption).
  destruct E as (r & r' & -> & -> & I & T & G & C & R & Q & P), E' as (q & q' & E & -> & I' & T' & G' & C' & R' & Q' & P'). injection E as <-.
  right. exists r, q'. do 7 (split; [congruence|]). split; [intros p; rewrite Q; apply Q'|]. intros p. eapply forall2_trans; [|apply P|apply P']. intros a b c. apply item_trans, IH.
Qed.

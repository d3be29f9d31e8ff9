(** Model of [add_value], crates/compaction/src/lib.rs 400-432. *)
From Verif Require Import Prelude Json.

Definition is_array (v : json) : bool := match v with JArr _ => true | _ => false end.

(** lib.rs 402-414: the first [match] of the function; [None] is an [unwrap] panic
    (duplicate key). *)
Definition av_prepare (m : jobject) (key : string) (as_array : bool) : option jobject :=
  match get_unique key m with
  | Err _ => None
  | Ok (Some v) =>
      if is_array v then Some m
      else Some (insert key (JArr [v]) (remove_key key m))
  | Ok None => if as_array then Some (insert key (JArr []) m) else Some m
  end.

(** lib.rs 422-430: the non-array branch; [None] is a panic of
    [get_unique_mut(..).ok().unwrap()] or [as_array_mut().unwrap()]. *)
Definition av_push (m : jobject) (key : string) (v : json) : option jobject :=
  match get_unique key m with
  | Err _ => None
  | Ok (Some (JArr l)) => Some (insert key (JArr (l ++ [v])) m)
  | Ok (Some _) => None
  | Ok None => Some (insert key v m)
  end.

(** lib.rs 400-432. *)
Fixpoint add_value (m : jobject) (key : string) (value : json) (as_array : bool) {struct value}
  : option jobject :=
  match av_prepare m key as_array with
  | None => None
  | Some m1 =>
      match value with
      | JArr values =>
          (fix go (m : jobject) (values : list json) : option jobject :=
             match values with
             | [] => Some m
             | v :: values' =>
                 match add_value m key v false with
                 | Some m' => go m' values'
                 | None => None
                 end
             end) m1 values
      | v => av_push m1 key v
      end
  end.

(** ** Specification *)

(** The sequence of values stored under a key. *)
Definition values_of (m : jobject) (key : string) : list json :=
  match assoc key m with
  | None => []
  | Some (JArr l) => l
  | Some v => [v]
  end.

(** The sequence of non-array values of the argument. *)
Fixpoint leaves (v : json) : list json :=
  match v with
  | JArr l => flat_map leaves l
  | v => [v]
  end.

(** ** Proofs *)
Definition av_ok (m m' : jobject) (key : string) (vs : list json) (as_array : bool) : Prop :=
  NoDup (keys m') /\
  values_of m' key = values_of m key ++ vs /\
  (forall k, k <> key -> assoc k m' = assoc k m) /\
  (as_array = true -> exists l, assoc key m' = Some (JArr l)) /\
  (forall l, assoc key m = Some (JArr l) -> exists l', assoc key m' = Some (JArr l')).

Lemma av_prepare_ok m key b : NoDup (keys m) ->
  exists m1, av_prepare m key b = Some m1 /\ av_ok m m1 key [] b /\
    (forall v, assoc key m1 = Some v -> exists l, v = JArr l).
Proof.
  intro N. unfold av_prepare, av_ok, values_of. rewrite (get_unique_nodup key m N).
  destruct (assoc key m) as [v|] eqn:E.
  - destruct (is_array v) eqn:Ea.
    + destruct v as [| | | |l|l]; try discriminate. exists m. rewrite E, app_nil_r.
      split; [reflexivity|]. split; [|intros v H; inversion H; eauto].
      repeat split; eauto.
    + eexists. split; [reflexivity|]. rewrite assoc_insert, streq_refl. split.
      * split; [apply nodup_insert, nodup_remove_key, N|].
        split; [destruct v; try discriminate; reflexivity|].
        split; [|split; eauto].
        intros k Hk. rewrite assoc_insert. destruct (streq_spec k key); [congruence|].
        apply assoc_remove_key. assumption.
      * intros w H. inversion H. eauto.
  - destruct b; eexists; (split; [reflexivity|]).
    + rewrite assoc_insert, streq_refl. split; [|intros w H; inversion H; eauto].
      split; [apply nodup_insert, N|]. split; [reflexivity|]. split; [|split; eauto].
      intros k Hk. rewrite assoc_insert. destruct (streq_spec k key); congruence.
    + rewrite E. split; [|discriminate]. repeat split; try assumption; discriminate.
Qed.

Lemma av_push_ok m key v : NoDup (keys m) -> is_array v = false ->
  (forall w, assoc key m = Some w -> exists l, w = JArr l) ->
  exists m', av_push m key v = Some m' /\ av_ok m m' key [v] false.
Proof.
  intros N Hv Ha. unfold av_push, av_ok, values_of. rewrite (get_unique_nodup key m N).
  destruct (assoc key m) as [w|] eqn:E.
  - destruct (Ha w eq_refl) as (l & ->). eexists. split; [reflexivity|].
    rewrite assoc_insert, streq_refl. split; [apply nodup_insert, N|]. split; [reflexivity|].
    split; [|split; [discriminate|eauto]].
    intros k Hk. rewrite assoc_insert. destruct (streq_spec k key); congruence.
  - eexists. split; [reflexivity|]. rewrite assoc_insert, streq_refl.
    split; [apply nodup_insert, N|]. split; [destruct v; try discriminate; reflexivity|].
    split; [|split; discriminate].
    intros k Hk. rewrite assoc_insert. destruct (streq_spec k key); congruence.
Qed.

Lemma av_ok_trans m m1 m2 key vs ws b :
  av_ok m m1 key vs b -> av_ok m1 m2 key ws false -> av_ok m m2 key (vs ++ ws) b.
Proof.
  intros (N1 & V1 & O1 & A1 & P1) (N2 & V2 & O2 & A2 & P2). split; [exact N2|].
  split; [rewrite V2, V1, app_assoc; reflexivity|].
  split; [intros k Hk; rewrite O2, O1 by assumption; reflexivity|]. split.
  - intro Hb. destruct (A1 Hb) as (l & El). apply (P2 l El).
  - intros l El. destruct (P1 l El) as (l' & El'). apply (P2 l' El').
Qed.

Lemma add_value_ok value : forall m key as_array, NoDup (keys m) ->
  exists m', add_value m key value as_array = Some m' /\ av_ok m m' key (leaves value) as_array.
Proof.
  induction value as [|x|x|x|l IH|x IH] using json_ind'; intros m key b N;
    destruct (av_prepare_ok m key b N) as (m1 & E1 & O1 & Ar).
  all: try (destruct (av_push_ok m1 key _ (proj1 O1) (eq_refl : is_array JNull = false) Ar) as (m2 & E2 & O2);
            exists m2; simpl; rewrite E1; split; [exact E2|apply (av_ok_trans _ _ _ _ _ _ _ O1 O2)]).
  all: try (destruct (av_push_ok m1 key (JBool x) (proj1 O1) eq_refl Ar) as (m2 & E2 & O2);
            exists m2; simpl; rewrite E1; split; [exact E2|apply (av_ok_trans _ _ _ _ _ _ _ O1 O2)]).
  all: try (destruct (av_push_ok m1 key (JNum x) (proj1 O1) eq_refl Ar) as (m2 & E2 & O2);
            exists m2; simpl; rewrite E1; split; [exact E2|apply (av_ok_trans _ _ _ _ _ _ _ O1 O2)]).
  all: try (destruct (av_push_ok m1 key (JStr x) (proj1 O1) eq_refl Ar) as (m2 & E2 & O2);
            exists m2; simpl; rewrite E1; split; [exact E2|apply (av_ok_trans _ _ _ _ _ _ _ O1 O2)]).
  all: try (destruct (av_push_ok m1 key (JObj x) (proj1 O1) eq_refl Ar) as (m2 & E2 & O2);
            exists m2; simpl; rewrite E1; split; [exact E2|apply (av_ok_trans _ _ _ _ _ _ _ O1 O2)]).
  simpl. rewrite E1. clear E1 Ar.
  change (leaves (JArr l)) with (flat_map leaves l).
  assert (G : forall l, Forall (fun value => forall m key b, NoDup (keys m) ->
      exists m', add_value m key value b = Some m' /\ av_ok m m' key (leaves value) b) l ->
    forall m1, NoDup (keys m1) ->
    exists m', (fix go (m : jobject) (values : list json) : option jobject :=
             match values with
             | [] => Some m
             | v :: values' =>
                 match add_value m key v false with
                 | Some m' => go m' values'
                 | None => None
                 end
             end) m1 l = Some m' /\ av_ok m1 m' key (flat_map leaves l) false).
  { clear. induction l as [|v l IHl]; intros H m1 N1.
    - exists m1. split; [reflexivity|]. split; [exact N1|]. split; [simpl; rewrite app_nil_r; reflexivity|].
      split; [reflexivity|]. split; [discriminate|eauto].
    - inversion H as [|? ? Hv Hl]; subst. destruct (Hv m1 key false N1) as (m2 & E2 & O2).
      destruct (IHl Hl m2 (proj1 O2)) as (m3 & E3 & O3). exists m3. rewrite E2.
      split; [exact E3|]. simpl. apply (av_ok_trans _ _ _ _ _ _ _ O2 O3). }
  destruct (G l IH m1 (proj1 O1)) as (m2 & E2 & O2). exists m2. split; [exact E2|].
  apply (av_ok_trans _ _ _ _ _ _ _ O1 O2).
Qed.

(** ** The shape of the result *)
Definition flat (v : json) : Prop :=
  forall l, v = JArr l -> forall x, In x l -> is_array x = false.

(** The value of [key] when the values [vs] are added to the state [s] of the key. *)
Definition shape (s : option json) (as_array : bool) (vs : list json) : option json :=
  match s, as_array with
  | None, false => match vs with [] => None | [v] => Some v | _ => Some (JArr vs) end
  | None, true => Some (JArr vs)
  | Some (JArr l), _ => Some (JArr (l ++ vs))
  | Some v, _ => Some (JArr (v :: vs))
  end.

Lemma av_prepare_shape m key b m1 : NoDup (keys m) -> av_prepare m key b = Some m1 ->
  assoc key m1 = shape (assoc key m) b [].
Proof.
  intro N. unfold av_prepare. rewrite (get_unique_nodup key m N).
  destruct (assoc key m) as [v|] eqn:E.
  - destruct v; cbn [is_array]; intro H; injection H as <-; try (rewrite assoc_insert, streq_refl; reflexivity).
    rewrite E. cbn. rewrite app_nil_r. reflexivity.
  - destruct b; intro H; injection H as <-; [rewrite assoc_insert, streq_refl; reflexivity|exact E].
Qed.

Lemma add_value_single m key v b m' : NoDup (keys m) -> is_array v = false ->
  add_value m key v b = Some m' -> assoc key m' = shape (assoc key m) b [v].
Proof.
  intros N Hv H. destruct (av_prepare_ok m key b N) as (m1 & E1 & O1 & _).
  assert (H' : av_push m1 key v = Some m') by (destruct v; cbn in H; rewrite E1 in H; try discriminate; exact H).
  clear H. pose proof (av_prepare_shape m key b m1 N E1) as S1. unfold av_push in H'.
  rewrite (get_unique_nodup key m1 (proj1 O1)), S1 in H'.
  destruct (assoc key m) as [w|]; [destruct w|destruct b]; cbn in H' |- *; injection H' as <-;
    rewrite assoc_insert, streq_refl, ?app_nil_r; reflexivity.
Qed.

Lemma add_value_shape value m key b m' : NoDup (keys m) -> flat value ->
  add_value m key value b = Some m' -> assoc key m' = shape (assoc key m) b (leaves value).
Proof.
  intros N F H. destruct (is_array value) eqn:Ea.
  - destruct value as [| | | |l|]; try discriminate. specialize (F l eq_refl).
    cbn in H. destruct (av_prepare_ok m key b N) as (m1 & E1 & O1 & _). rewrite E1 in H.
    pose proof (av_prepare_shape m key b m1 N E1) as S1. destruct O1 as [N1 _].
    assert (L : leaves (JArr l) = l).
    { cbn. clear - F. induction l as [|x l IH]; [reflexivity|]. cbn [flat_map].
      rewrite IH by (intros y Hy; apply F; right; exact Hy).
      specialize (F x (or_introl eq_refl)). destruct x; try discriminate; reflexivity. }
    rewrite L. clear L E1.
    enough (G : forall l m1 vs, NoDup (keys m1) -> (forall x, In x vs -> is_array x = false) ->
        (forall x, In x l -> is_array x = false) -> assoc key m1 = shape (assoc key m) b vs ->
      (fix go (m : jobject) (values : list json) : option jobject :=
             match values with
             | [] => Some m
             | v :: values' =>
                 match add_value m key v false with
                 | Some m' => go m' values'
                 | None => None
                 end
             end) m1 l = Some m' -> assoc key m' = shape (assoc key m) b (vs ++ l)).
    { apply (G l m1 []); auto. intros x []. }
    clear. induction l as [|v l IH]; intros m1 vs N1 V L S H.
    { injection H as <-. rewrite app_nil_r. exact S. }
    destruct (add_value_ok v m1 key false N1) as (m2 & E2 & O2). rewrite E2 in H.
    replace (vs ++ v :: l) with ((vs ++ [v]) ++ l) by (rewrite <- app_assoc; reflexivity).
    pose proof (L v (or_introl eq_refl)) as Hv. apply (IH m2); [apply O2| | | |exact H].
    + intros x Hx. apply in_app_iff in Hx. destruct Hx as [Hx|[<-|[]]]; auto.
    + intros x Hx. apply L. right. exact Hx.
    + rewrite (add_value_single _ _ _ _ _ N1 Hv E2), S. clear - V. destruct (assoc key m) as [w|].
      * destruct w; cbn; rewrite ?app_assoc; reflexivity.
      * destruct b; [reflexivity|]. destruct vs as [|x [|y vs]]; [reflexivity| |reflexivity].
        specialize (V x (or_introl eq_refl)). destruct x; try discriminate; reflexivity.
  - replace (leaves value) with [value] by (destruct value; try discriminate; reflexivity).
    eapply add_value_single; eassumption.
Qed.

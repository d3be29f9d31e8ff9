(** JSON values as used through the [json_syntax] crate (external dependency, not in
    /repo).  Assumed interface: an object is a sequence of entries; [get_unique] fails on
    duplicate keys; [insert] replaces the entries of a key or appends a new one.
    Numbers are kept as their text, as [json_syntax::NumberBuf] does. *)
From Verif Require Import Prelude.

Inductive json : Type :=
| JNull
| JBool (b : bool)
| JNum (n : string)
| JStr (s : string)
| JArr (l : list json)
| JObj (l : list (string * json)).

Section JsonInd.
  Variable P : json -> Prop.
  Hypothesis Hnull : P JNull.
  Hypothesis Hbool : forall b, P (JBool b).
  Hypothesis Hnum : forall n, P (JNum n).
  Hypothesis Hstr : forall s, P (JStr s).
  Hypothesis Harr : forall l, Forall P l -> P (JArr l).
  Hypothesis Hobj : forall l, Forall (fun e => P (snd e)) l -> P (JObj l).

  Fixpoint json_ind' (j : json) : P j :=
    match j with
    | JNull => Hnull
    | JBool b => Hbool b
    | JNum n => Hnum n
    | JStr s => Hstr s
    | JArr l => Harr l ((fix go (l : list json) : Forall P l :=
        match l with
        | [] => Forall_nil _
        | x :: l' => Forall_cons _ (json_ind' x) (go l')
        end) l)
    | JObj l => Hobj l ((fix go (l : list (string * json)) : Forall (fun e => P (snd e)) l :=
        match l with
        | [] => Forall_nil _
        | x :: l' => Forall_cons x (json_ind' (snd x)) (go l')
        end) l)
    end.
End JsonInd.

Definition jobject := list (string * json).
Definition keys {A} (l : list (string * A)) : list string := map fst l.

(** Every object at every depth has pairwise distinct keys. *)
Inductive unique_keys : json -> Prop :=
| UNull : unique_keys JNull
| UBool b : unique_keys (JBool b)
| UNum n : unique_keys (JNum n)
| UStr s : unique_keys (JStr s)
| UArr l : Forall unique_keys l -> unique_keys (JArr l)
| UObj l : NoDup (keys l) -> Forall (fun e => unique_keys (snd e)) l -> unique_keys (JObj l).

Fixpoint json_size (j : json) : nat :=
  match j with
  | JArr l => S (list_sum (map json_size l))
  | JObj l => S (list_sum (map (fun e => json_size (snd e)) l))
  | _ => 1
  end.

(** Boolean equality of JSON values (derived [PartialEq]). *)
Fixpoint json_eqb (a b : json) {struct a} : bool :=
  match a, b with
  | JNull, JNull => true
  | JBool x, JBool y => Bool.eqb x y
  | JNum x, JNum y => streq x y
  | JStr x, JStr y => streq x y
  | JArr x, JArr y =>
      (fix go (x y : list json) : bool :=
         match x, y with
         | [], [] => true
         | u :: x', v :: y' => json_eqb u v && go x' y'
         | _, _ => false
         end) x y
  | JObj x, JObj y =>
      (fix go (x y : list (string * json)) : bool :=
         match x, y with
         | [], [] => true
         | (k, u) :: x', (k', v) :: y' => streq k k' && (json_eqb u v && go x' y')
         | _, _ => false
         end) x y
  | _, _ => false
  end.

Lemma json_eqb_eq a : forall b, json_eqb a b = true <-> a = b.
Proof.
  induction a as [| | | |l IH|l IH] using json_ind'; intros [| | | |m|m]; simpl;
    try (split; intro H; (discriminate || reflexivity)).
  - rewrite eqb_true_iff. split; congruence.
  - rewrite streq_true. split; congruence.
  - rewrite streq_true. split; congruence.
  - assert (G : (fix go (x y : list json) : bool :=
         match x, y with
         | [], [] => true
         | u :: x', v :: y' => json_eqb u v && go x' y'
         | _, _ => false
         end) l m = true <-> l = m).
    { revert m. induction IH as [|x l Hx Hl IHl]; intros [|y m]; try (split; (discriminate || reflexivity)).
      rewrite andb_true_iff, Hx, IHl. split; [intros [-> ->]; reflexivity|intro E; inversion E; auto]. }
    rewrite G. split; congruence.
  - assert (G : (fix go (x y : list (string * json)) : bool :=
         match x, y with
         | [], [] => true
         | (k, u) :: x', (k', v) :: y' => streq k k' && (json_eqb u v && go x' y')
         | _, _ => false
         end) l m = true <-> l = m).
    { revert m. induction IH as [|[k x] l Hx Hl IHl]; intros [|[k' y] m]; try (split; (discriminate || reflexivity)).
      simpl in Hx. rewrite !andb_true_iff, streq_true, Hx, IHl.
      split; [intros [-> [-> ->]]; reflexivity|intro E; inversion E; auto]. }
    rewrite G. split; congruence.
Qed.

(** ** Object operations of [json_syntax::Object] *)

(** All values bound to a key. *)
Definition get_all (k : string) (l : jobject) : list json :=
  map snd (filter (fun e => streq (fst e) k) l).

(** [Object::get_unique]: [Err] when several entries share the key. *)
Definition get_unique (k : string) (l : jobject) : result (option json) unit :=
  match get_all k l with
  | [] => Ok None
  | [v] => Ok (Some v)
  | _ => Err tt
  end.

(** Removing every entry of a key ([Object::remove]). *)
Definition remove_key (k : string) (l : jobject) : jobject :=
  filter (fun e => negb (streq (fst e) k)) l.

(** [Object::insert]: the value of the first entry with this key is replaced (other
    entries with the same key removed), or a new entry is appended. *)
Fixpoint insert (k : string) (v : json) (l : jobject) : jobject :=
  match l with
  | [] => [(k, v)]
  | (k', v') :: l' => if streq k' k then (k, v) :: remove_key k l' else (k', v') :: insert k v l'
  end.

(** ** Lemmas *)
Lemma get_all_nil k l : get_all k l = [] <-> ~ In k (keys l).
Proof.
  unfold get_all, keys. induction l as [|[k' v] l IH]; simpl; [tauto|].
  destruct (streq_spec k' k) as [->|N]; simpl.
  - split; [discriminate|]. intro H. exfalso. apply H. left. reflexivity.
  - rewrite IH. tauto.
Qed.

Lemma assoc_get_all k l : assoc k l = hd_error (get_all k l).
Proof.
  unfold get_all. induction l as [|[k' v] l IH]; simpl; [reflexivity|].
  destruct (streq_spec k' k) as [->|N]; simpl.
  - rewrite streq_refl. reflexivity.
  - destruct (streq_spec k k') as [E|_]; [congruence|]. apply IH.
Qed.

Lemma get_unique_nodup k l : NoDup (keys l) -> get_unique k l = Ok (assoc k l).
Proof.
  intro H. unfold get_unique. rewrite assoc_get_all.
  assert (L : (length (get_all k l) <= 1)%nat).
  { induction l as [|[k' v] l IH]; simpl; [lia|].
    inversion H as [|? ? Hn Hd]; subst. unfold get_all in *. simpl.
    destruct (streq_spec k' k) as [->|N]; simpl; [|apply IH, Hd].
    assert (E : get_all k l = []) by (apply get_all_nil; exact Hn).
    unfold get_all in E. rewrite map_length. apply map_eq_nil in E. rewrite E. simpl. lia. }
  destruct (get_all k l) as [|v [|w r]]; simpl in *; [reflexivity|reflexivity|lia].
Qed.

Lemma assoc_Some_In {A} k (l : list (string * A)) v : assoc k l = Some v -> In (k, v) l.
Proof.
  induction l as [|[k' v'] l IH]; simpl; [discriminate|].
  destruct (streq_spec k k') as [->|N]; intro H.
  - inversion H; subst. left. reflexivity.
  - right. apply IH, H.
Qed.

Lemma assoc_In_nodup {A} k (l : list (string * A)) v :
  NoDup (keys l) -> In (k, v) l -> assoc k l = Some v.
Proof.
  induction l as [|[k' v'] l IH]; simpl; [tauto|]. intros Hd [E|Hi].
  - inversion E; subst. rewrite streq_refl. reflexivity.
  - inversion Hd as [|? ? Hn Hd']; subst. destruct (streq_spec k k') as [->|N]; [|apply IH; assumption].
    exfalso. apply Hn. apply (in_map fst) in Hi. exact Hi.
Qed.

Lemma assoc_None_notin {A} k (l : list (string * A)) : assoc k l = None <-> ~ In k (keys l).
Proof.
  induction l as [|[k' v'] l IH]; simpl; [tauto|].
  destruct (streq_spec k k') as [->|N].
  - split; [discriminate|]. intro H. exfalso. apply H. left. reflexivity.
  - rewrite IH. intuition congruence.
Qed.

Lemma remove_key_notin k l : ~ In k (keys l) -> remove_key k l = l.
Proof.
  induction l as [|[k' v'] l IH]; simpl; [reflexivity|]. intro H.
  destruct (streq_spec k' k) as [->|N]; simpl; [exfalso; apply H; left; reflexivity|].
  rewrite IH; [reflexivity|tauto].
Qed.

Lemma keys_remove_key k l x : In x (keys (remove_key k l)) <-> In x (keys l) /\ x <> k.
Proof.
  unfold keys, remove_key. rewrite !in_map_iff. split.
  - intros ([a v] & E & H). apply filter_In in H. destruct H as [H N]. simpl in *. subst.
    split; [exists (x, v); auto|]. intro; subst. rewrite streq_refl in N. discriminate.
  - intros [([a v] & E & H) N]. simpl in *. subst. exists (x, v). split; [reflexivity|].
    apply filter_In. split; [exact H|]. simpl. destruct (streq_spec x k); simpl; congruence.
Qed.

Lemma nodup_remove_key k l : NoDup (keys l) -> NoDup (keys (remove_key k l)).
Proof.
  induction l as [|[k' v'] l IH]; simpl; [intro; constructor|]. intro H.
  inversion H as [|? ? Hn Hd]; subst. destruct (streq_spec k' k); simpl; [apply IH, Hd|].
  constructor; [|apply IH, Hd]. rewrite keys_remove_key. tauto.
Qed.

Lemma keys_insert k v l x : In x (keys (insert k v l)) <-> x = k \/ In x (keys l).
Proof.
  induction l as [|[k' v'] l IH]; simpl; [intuition congruence|].
  destruct (streq_spec k' k) as [->|N]; simpl.
  - rewrite keys_remove_key. destruct (streq_spec x k); intuition congruence.
  - rewrite IH. tauto.
Qed.

Lemma nodup_insert k v l : NoDup (keys l) -> NoDup (keys (insert k v l)).
Proof.
  induction l as [|[k' v'] l IH]; simpl; intro H; [repeat constructor; intros []|].
  inversion H as [|? ? Hn Hd]; subst. destruct (streq_spec k' k) as [->|N]; simpl.
  - constructor; [|apply nodup_remove_key, Hd]. rewrite keys_remove_key. tauto.
  - constructor; [|apply IH, Hd]. rewrite keys_insert. intros [E|Hi]; congruence.
Qed.

Lemma assoc_remove_key k l x : x <> k -> assoc x (remove_key k l) = assoc x l.
Proof.
  intro N. induction l as [|[k' v'] l IH]; simpl; [reflexivity|].
  destruct (streq_spec k' k) as [->|M]; simpl.
  - destruct (streq_spec x k); [congruence|exact IH].
  - rewrite IH. reflexivity.
Qed.

Lemma assoc_remove_key_same k l : assoc k (remove_key k l) = None.
Proof. apply assoc_None_notin. rewrite keys_remove_key. tauto. Qed.

Lemma assoc_insert k v l x : assoc x (insert k v l) = if streq x k then Some v else assoc x l.
Proof.
  induction l as [|[k' v'] l IH]; simpl.
  - destruct (streq x k); reflexivity.
  - destruct (streq_spec k' k) as [->|N]; simpl.
    + destruct (streq_spec x k); [reflexivity|]. apply assoc_remove_key. assumption.
    + rewrite IH. destruct (streq_spec x k') as [->|M]; [|reflexivity].
      destruct (streq_spec k' k); [congruence|reflexivity].
Qed.

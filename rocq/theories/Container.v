(** Model of crates/core/src/container.rs. *)
From Verif Require Import Prelude Keyword Enums.

(** crates/core/src/container.rs 6-28 (enum [Container]). *)
Inductive container : Type :=
| CNone
| CGraph | CId | CIndex | CLanguage | CList | CSet | CType
| CGraphSet | CGraphId | CGraphIndex | CIdSet | CIndexSet | CLanguageSet | CSetType
| CGraphIdSet | CGraphIndexSet.

(** container.rs 73-98 ([Container::as_slice]). *)
Definition as_slice (c : container) : list ckind :=
  match c with
  | CNone => []
  | CGraph => [CKGraph] | CId => [CKId] | CIndex => [CKIndex]
  | CLanguage => [CKLanguage] | CList => [CKList] | CSet => [CKSet] | CType => [CKType]
  | CGraphSet => [CKGraph; CKSet] | CGraphId => [CKGraph; CKId]
  | CGraphIndex => [CKGraph; CKIndex] | CIdSet => [CKId; CKSet]
  | CIndexSet => [CKIndex; CKSet] | CLanguageSet => [CKLanguage; CKSet]
  | CSetType => [CKType; CKSet]
  | CGraphIdSet => [CKGraph; CKId; CKSet]
  | CGraphIndexSet => [CKGraph; CKIndex; CKSet]
  end.

(** container.rs 111-113 ([Container::contains]). *)
Definition c_contains (c : container) (k : ckind) : bool := existsb (ckind_eqb k) (as_slice c).

(** container.rs 192-204 ([From<ContainerKind> for Container]). *)
Definition container_of_kind (k : ckind) : container :=
  match k with
  | CKGraph => CGraph | CKId => CId | CKIndex => CIndex | CKLanguage => CLanguage
  | CKList => CList | CKSet => CSet | CKType => CType
  end.

(** container.rs 115-169 ([Container::with]), arm by arm. *)
Definition c_with (c : container) (k : ckind) : option container :=
  match c, k with
  | CNone, k => Some (container_of_kind k)
  | CGraph, CKGraph => Some c
  | CGraph, CKSet => Some CGraphSet
  | CGraph, CKId => Some CGraphId
  | CGraph, CKIndex => Some CGraphIndex
  | CId, CKId => Some c
  | CId, CKGraph => Some CGraphId
  | CId, CKSet => Some CIdSet
  | CIndex, CKIndex => Some c
  | CIndex, CKGraph => Some CGraphIndex
  | CIndex, CKSet => Some CIndexSet
  | CLanguage, CKLanguage => Some c
  | CLanguage, CKSet => Some CLanguageSet
  | CList, CKList => Some c
  | CSet, CKSet => Some c
  | CSet, CKGraph => Some CGraphSet
  | CSet, CKId => Some CIdSet
  | CSet, CKIndex => Some CIndexSet
  | CSet, CKLanguage => Some CLanguageSet
  | CSet, CKType => Some CSetType
  | CType, CKType => Some c
  | CType, CKSet => Some CSetType
  | CGraphSet, CKGraph => Some c
  | CGraphSet, CKSet => Some c
  | CGraphSet, CKId => Some CGraphIdSet
  | CGraphSet, CKIndex => Some CGraphIdSet
  | CGraphId, CKGraph => Some c
  | CGraphId, CKId => Some c
  | CGraphId, CKSet => Some CGraphIdSet
  | CGraphIndex, CKGraph => Some c
  | CGraphIndex, CKIndex => Some c
  | CGraphIndex, CKSet => Some CGraphIndexSet
  | CIdSet, CKId => Some c
  | CIdSet, CKSet => Some c
  | CIdSet, CKGraph => Some CGraphIdSet
  | CIndexSet, CKIndex => Some c
  | CIndexSet, CKSet => Some c
  | CIndexSet, CKGraph => Some CGraphIndexSet
  | CLanguageSet, CKLanguage => Some c
  | CLanguageSet, CKSet => Some c
  | CSetType, CKSet => Some c
  | CSetType, CKType => Some c
  | CGraphIdSet, CKGraph => Some c
  | CGraphIdSet, CKId => Some c
  | CGraphIdSet, CKSet => Some c
  | CGraphIndexSet, CKGraph => Some c
  | CGraphIndexSet, CKIndex => Some c
  | CGraphIndexSet, CKSet => Some c
  | _, _ => None
  end.

(** container.rs 59-71 ([Container::from]) and the loop of 44-57
    ([from_syntax], [Many] case): fold of [add], failing at the first kind that
    cannot be added.  The offending kind returned in the error is dropped. *)
Fixpoint c_add_all (c : container) (l : list ckind) : option container :=
  match l with
  | [] => Some c
  | k :: l' => match c_with c k with Some c' => c_add_all c' l' | None => None end
  end.

Definition c_from (l : list ckind) : option container := c_add_all CNone l.

(** crates/syntax/src/container.rs 99-108 (enum [Container] of the syntax crate). *)
Inductive scontainer : Type :=
| SOne (k : ckind)
| SMany (l : list ckind).

(** container.rs 42-57 ([Container::from_syntax]). *)
Definition c_from_syntax (r : nullable scontainer) : option container :=
  match r with
  | NNull => Some CNone
  | NSome (SOne k) => Some (container_of_kind k)
  | NSome (SMany l) => c_from l
  end.

(** container.rs 181-189 ([Container::into_syntax]). *)
Definition c_into_syntax (c : container) : option scontainer :=
  match as_slice c with
  | [] => None
  | [k] => Some (SOne k)
  | l => Some (SMany l)
  end.

(** ** Specification (JSON-LD 1.1, grammar of [@container]): the empty mapping, a
    single kind, [@set] combined with one of index, graph, id, type or language, and
    [@graph] combined with [@id] or [@index] and optionally [@set]. *)
Definition same_members (l m : list ckind) : Prop := forall k, In k l <-> In k m.

Definition allowed_combinations : list (list ckind) :=
  [ []; [CKGraph]; [CKId]; [CKIndex]; [CKLanguage]; [CKList]; [CKSet]; [CKType];
    [CKSet; CKIndex]; [CKSet; CKGraph]; [CKSet; CKId]; [CKSet; CKType]; [CKSet; CKLanguage];
    [CKGraph; CKId]; [CKGraph; CKIndex]; [CKGraph; CKId; CKSet]; [CKGraph; CKIndex; CKSet] ].

Definition allowed (l : list ckind) : Prop :=
  exists m, In m allowed_combinations /\ same_members l m.

(** The inputs on which the code deviates: [@index] first listed after both [@graph]
    and [@set] (and with no [@id] before it). *)
Definition late_index (l : list ckind) : Prop :=
  exists p q, l = p ++ CKIndex :: q /\ ~ In CKIndex p /\ In CKGraph p /\ In CKSet p.

(** ** Proofs *)
Definition memb (k : ckind) (l : list ckind) : bool := existsb (ckind_eqb k) l.

Lemma memb_In k l : memb k l = true <-> In k l.
Proof.
  unfold memb. rewrite existsb_exists. split.
  - intros (x & H & E). destruct (ckind_eqb_spec k x); [subst; exact H|discriminate].
  - intro H. exists k. split; [exact H|]. destruct (ckind_eqb_spec k k); congruence.
Qed.

Definition all_kinds : list ckind := [CKGraph; CKId; CKIndex; CKLanguage; CKList; CKSet; CKType].

Lemma all_kinds_In k : In k all_kinds.
Proof. destruct k; simpl; tauto. Qed.

Definition same_members_b (l m : list ckind) : bool :=
  forallb (fun k => Bool.eqb (memb k l) (memb k m)) all_kinds.

Lemma same_members_b_spec l m : same_members_b l m = true <-> same_members l m.
Proof.
  unfold same_members_b, same_members. rewrite forallb_forall. split.
  - intros H k. specialize (H k (all_kinds_In k)). apply eqb_prop in H.
    rewrite <- !memb_In, H. tauto.
  - intros H k _. specialize (H k). rewrite <- !memb_In in H.
    destruct (memb k l), (memb k m); simpl; try reflexivity; intuition discriminate.
Qed.

Definition allowed_b (l : list ckind) : bool := existsb (same_members_b l) allowed_combinations.

Lemma allowed_b_spec l : allowed_b l = true <-> allowed l.
Proof.
  unfold allowed_b, allowed. rewrite existsb_exists.
  split; intros (m & H & E); exists m; (split; [exact H|]); apply same_members_b_spec; exact E.
Qed.

Lemma same_members_trans l m n : same_members l m -> same_members m n -> same_members l n.
Proof. intros H1 H2 k. rewrite (H1 k). apply H2. Qed.
Lemma same_members_sym l m : same_members l m -> same_members m l.
Proof. intros H k. symmetry. apply H. Qed.
Lemma same_members_refl l : same_members l l.
Proof. intro. tauto. Qed.

Lemma allowed_ext l m : same_members l m -> allowed l -> allowed m.
Proof.
  intros H (n & Hn & E). exists n. split; [exact Hn|].
  apply same_members_trans with l; [apply same_members_sym|]; assumption.
Qed.

(** Subsets of allowed combinations are allowed. *)
Lemma allowed_subset_b :
  forallb (fun m => forallb (fun k =>
    allowed_b (filter (fun x => negb (ckind_eqb x k)) m)) all_kinds) allowed_combinations = true.
Proof. vm_compute. reflexivity. Qed.

Lemma as_slice_allowed c : allowed (as_slice c).
Proof. apply allowed_b_spec. destruct c; vm_compute; reflexivity. Qed.

Lemma as_slice_inj c d : same_members (as_slice c) (as_slice d) -> c = d.
Proof.
  intro H. apply same_members_b_spec in H.
  destruct c, d; try reflexivity; vm_compute in H; discriminate.
Qed.

Lemma c_with_exact c k :
  (c <> CGraphSet \/ k <> CKIndex) ->
  match c_with c k with
  | Some c' => same_members (as_slice c') (k :: as_slice c)
  | None => ~ allowed (k :: as_slice c)
  end.
Proof.
  intro H.
  destruct c, k; simpl c_with; cbv iota;
    try (apply same_members_b_spec; vm_compute; reflexivity);
    try (rewrite <- allowed_b_spec; vm_compute; discriminate);
    exfalso; destruct H as [H|H]; apply H; reflexivity.
Qed.

(** Removing members keeps a combination allowed. *)
Lemma allowed_incl l m : incl l m -> allowed m -> allowed l.
Proof.
  intros Hi Hm. apply allowed_b_spec in Hm.
  assert (G : forall m', In m' allowed_combinations -> same_members m m' -> allowed l).
  { intros m' Hin Hs.
    assert (Hl : same_members l (filter (fun x => memb x l) m')).
    { intro k. rewrite filter_In, memb_In. split.
      - intro Hk. split; [|exact Hk]. apply Hs, Hi, Hk.
      - intros [_ Hk]. exact Hk. }
    apply allowed_ext with (filter (fun x => memb x l) m'); [apply same_members_sym, Hl|].
    clear - Hin. apply allowed_b_spec.
    assert (F : forall b1 b2 b3 b4 b5 b6 b7 : bool,
      let f := fun x => match x with CKGraph => b1 | CKId => b2 | CKIndex => b3
        | CKLanguage => b4 | CKList => b5 | CKSet => b6 | CKType => b7 end in
      forallb (fun m => allowed_b (filter f m)) allowed_combinations = true).
    { intros [] [] [] [] [] [] []; vm_compute; reflexivity. }
    specialize (F (memb CKGraph l) (memb CKId l) (memb CKIndex l) (memb CKLanguage l)
                  (memb CKList l) (memb CKSet l) (memb CKType l)).
    cbv zeta in F. rewrite forallb_forall in F. specialize (F m' Hin).
    rewrite <- F. f_equal. apply filter_ext. intros []; reflexivity. }
  apply allowed_b_spec in Hm. destruct Hm as (m' & Hin & Hs). apply (G m' Hin Hs).
Qed.

Lemma c_add_all_exact l : forall c p,
  same_members (as_slice c) p ->
  ~ late_index (p ++ l) ->
  match c_add_all c l with
  | Some c' => same_members (as_slice c') (p ++ l)
  | None => ~ allowed (p ++ l)
  end.
Proof.
  induction l as [|k l IH]; intros c p Hs Hl; simpl.
  - rewrite app_nil_r. exact Hs.
  - assert (Hg : c <> CGraphSet \/ k <> CKIndex).
    { destruct (ckind_eqb_spec k CKIndex) as [->|Hk]; [left|right; exact Hk].
      intros ->. apply Hl. exists p, l. split; [reflexivity|].
      repeat split.
      - intro Hi. apply Hs in Hi. simpl in Hi. intuition discriminate.
      - apply Hs. simpl. tauto.
      - apply Hs. simpl. tauto. }
    pose proof (c_with_exact c k Hg) as Hw.
    destruct (c_with c k) as [c'|].
    + replace (p ++ k :: l) with ((p ++ [k]) ++ l) in * by (rewrite <- app_assoc; reflexivity).
      apply IH; [|exact Hl].
      intro x. rewrite (Hw x), in_app_iff. simpl. rewrite (Hs x). tauto.
    + intro Ha. apply Hw. apply allowed_incl with (p ++ k :: l); [|exact Ha].
      intros x [<-|Hx]; apply in_app_iff; [right; left; reflexivity|left; apply Hs; exact Hx].
Qed.

Lemma c_from_exact l :
  ~ late_index l ->
  match c_from l with
  | Some c => same_members (as_slice c) l /\ allowed l
  | None => ~ allowed l
  end.
Proof.
  intro H. pose proof (c_add_all_exact l CNone [] (same_members_refl _) H) as E.
  unfold c_from. simpl in E. destruct (c_add_all CNone l) as [c|]; [|exact E].
  split; [exact E|]. apply allowed_ext with (as_slice c); [exact E|apply as_slice_allowed].
Qed.

Lemma c_from_order_independent l m :
  ~ late_index l -> ~ late_index m -> same_members l m -> c_from l = c_from m.
Proof.
  intros Hl Hm Hs. pose proof (c_from_exact l Hl) as El. pose proof (c_from_exact m Hm) as Em.
  destruct (c_from l) as [c|], (c_from m) as [d|]; try reflexivity.
  - f_equal. apply as_slice_inj.
    apply same_members_trans with l; [apply El|].
    apply same_members_trans with m; [exact Hs|apply same_members_sym, Em].
  - exfalso. apply Em. apply allowed_ext with l; [exact Hs|apply El].
  - exfalso. apply El. apply allowed_ext with m; [apply same_members_sym, Hs|apply Em].
Qed.

Lemma c_syntax_roundtrip c :
  match c_into_syntax c with
  | Some s => c_from_syntax (NSome s) = Some c
  | None => c_from_syntax NNull = Some c
  end.
Proof. destruct c; reflexivity. Qed.

(** Model of crates/context-processing/src/stack.rs. *)
From Verif Require Import Prelude.

(** stack.rs 4-10 ([StackNode]): a frame and its predecessors.  [Arc] sharing is not
    modelled: frames are immutable, so sharing is unobservable. *)
Inductive frame : Type :=
| Frame (previous : option frame) (url : string).

(** stack.rs 37-40 ([ProcessingStack]). *)
Definition pstack := option frame.

(** stack.rs 19-31 ([StackNode::contains]). *)
Fixpoint frame_contains (f : frame) (u : string) : bool :=
  match f with
  | Frame prev url =>
      if streq url u then true
      else match prev with Some p => frame_contains p u | None => false end
  end.

(** stack.rs 44-46 ([ProcessingStack::new]). *)
Definition ps_new : pstack := None.

(** stack.rs 49-51 ([is_empty]). *)
Definition ps_is_empty (s : pstack) : bool := match s with None => true | Some _ => false end.

(** stack.rs 56-64 ([cycle]). *)
Definition ps_cycle (s : pstack) (u : string) : bool :=
  match s with Some h => frame_contains h u | None => false end.

(** stack.rs 70-82 ([push]): the answer and the stack afterwards. *)
Definition ps_push (s : pstack) (u : string) : bool * pstack :=
  if ps_cycle s u then (false, s) else (true, Some (Frame s u)).

(** ** Histories of operations on a family of stacks, numbered in creation order. *)
Inductive sop : Type :=
| OpNew
| OpClone (h : nat)
| OpPush (h : nat) (u : string).

Fixpoint upd {A} (l : list A) (n : nat) (x : A) : list A :=
  match l, n with
  | [], _ => []
  | _ :: l', 0 => x :: l'
  | y :: l', S n' => y :: upd l' n' x
  end.

(** Executes one operation; the answer is [true] except for a refused push.
    Operations on handles that do not exist are ignored. *)
Definition sstep (p : list pstack) (o : sop) : list pstack * bool :=
  match o with
  | OpNew => (p ++ [ps_new], true)
  | OpClone h => match nth_error p h with Some s => (p ++ [s], true) | None => (p, true) end
  | OpPush h u => match nth_error p h with
                  | Some s => let '(b, s') := ps_push s u in (upd p h s', b)
                  | None => (p, true)
                  end
  end.

Definition srun (H : list sop) : list pstack := fold_left (fun p o => fst (sstep p o)) H [].

(** ** Specification, by reading the history backwards (most recent operation first):
    how many stacks exist, and which URLs are on the chain of a stack. *)
Fixpoint handles (R : list sop) : nat :=
  match R with
  | [] => 0
  | OpNew :: R' => S (handles R')
  | OpClone h :: R' => if h <? handles R' then S (handles R') else handles R'
  | OpPush _ _ :: R' => handles R'
  end.

Fixpoint on_chain (R : list sop) (h : nat) (u : string) : Prop :=
  match R with
  | [] => False
  | OpNew :: R' => h < handles R' /\ on_chain R' h u
  | OpClone h' :: R' => if (h =? handles R') && (h' <? handles R') then on_chain R' h' u
                        else on_chain R' h u
  | OpPush h' u' :: R' => on_chain R' h u \/ (h = h' /\ h < handles R' /\ u = u')
  end.

(** The URLs of a stack, most recent first. *)
Fixpoint frame_urls (f : frame) : list string :=
  match f with
  | Frame prev url => url :: match prev with Some p => frame_urls p | None => [] end
  end.
Definition ps_urls (s : pstack) : list string := match s with Some f => frame_urls f | None => [] end.

(** ** Proofs *)
Section FrameInd.
  Variable P : frame -> Prop.
  Hypothesis H0 : forall u, P (Frame None u).
  Hypothesis H1 : forall p u, P p -> P (Frame (Some p) u).
  Fixpoint frame_ind' (f : frame) : P f :=
    match f with
    | Frame None u => H0 u
    | Frame (Some p) u => H1 p u (frame_ind' p)
    end.
End FrameInd.

Lemma frame_contains_In f u : frame_contains f u = true <-> In u (frame_urls f).
Proof.
  induction f as [v|p v IH] using frame_ind'; simpl; destruct (streq_spec v u) as [->|N].
  - tauto.
  - split; [discriminate|]. intros [E|[]]. congruence.
  - tauto.
  - rewrite IH. intuition congruence.
Qed.

Lemma ps_cycle_In s u : ps_cycle s u = true <-> In u (ps_urls s).
Proof.
  destruct s as [f|]; simpl; [apply frame_contains_In|]. split; [discriminate|intros []].
Qed.

Lemma ps_push_spec s u :
  (In u (ps_urls s) -> ps_push s u = (false, s)) /\
  (~ In u (ps_urls s) -> exists s', ps_push s u = (true, s') /\ ps_urls s' = u :: ps_urls s).
Proof.
  unfold ps_push. destruct (ps_cycle s u) eqn:E.
  - apply ps_cycle_In in E. split; [reflexivity|]. intro N. contradiction.
  - split.
    + intro H. apply ps_cycle_In in H. congruence.
    + intros _. exists (Some (Frame s u)). split; [reflexivity|]. destruct s; reflexivity.
Qed.

Lemma ps_push_nodup s u : NoDup (ps_urls s) -> NoDup (ps_urls (snd (ps_push s u))).
Proof.
  intro H. destruct (ps_push_spec s u) as [S1 S2].
  destruct (in_dec string_dec u (ps_urls s)) as [I|I].
  - rewrite (S1 I). exact H.
  - destruct (S2 I) as (s' & E & U). rewrite E. simpl. rewrite U. constructor; assumption.
Qed.

Lemma upd_length {A} (l : list A) n x : length (upd l n x) = length l.
Proof. revert n. induction l as [|y l IH]; intros [|n]; simpl; auto. Qed.

Lemma nth_upd_same {A} (l : list A) n x : n < length l -> nth_error (upd l n x) n = Some x.
Proof.
  revert n. induction l as [|y l IH]; intros [|n] H; simpl in *; try lia; [reflexivity|].
  apply IH. lia.
Qed.

Lemma nth_upd_other {A} (l : list A) n m x : n <> m -> nth_error (upd l n x) m = nth_error l m.
Proof.
  revert n m. induction l as [|y l IH]; intros [|n] [|m] H; simpl; try reflexivity; try lia.
  apply IH. lia.
Qed.

Lemma srun_snoc H o : srun (H ++ [o]) = fst (sstep (srun H) o).
Proof. unfold srun. rewrite fold_left_app. reflexivity. Qed.

Lemma srun_handles H : length (srun H) = handles (rev H).
Proof.
  induction H as [|o H IH] using rev_ind; [reflexivity|].
  rewrite srun_snoc, rev_app_distr. simpl. destruct o as [|h|h u]; simpl.
  - rewrite app_length. simpl. lia.
  - rewrite <- IH. destruct (nth_error (srun H) h) eqn:E.
    + assert (h < length (srun H)) by (apply nth_error_Some; congruence).
      destruct (Nat.ltb_spec h (length (srun H))); [|lia]. simpl. rewrite app_length. simpl. lia.
    + apply nth_error_None in E. destruct (Nat.ltb_spec h (length (srun H))); [lia|reflexivity].
  - destruct (nth_error (srun H) h) as [s|]; [|exact IH].
    destruct (ps_push s u) as [b s']. simpl. rewrite upd_length. exact IH.
Qed.

Lemma on_chain_bound R h u : on_chain R h u -> h < handles R.
Proof.
  revert h. induction R as [|[|h'|h' u'] R IH]; simpl; intros h H.
  - destruct H.
  - lia.
  - destruct (Nat.eqb_spec h (handles R)), (Nat.ltb_spec h' (handles R)); simpl in *; try lia;
      apply IH in H; lia.
  - destruct H as [H|H]; [apply IH, H|lia].
Qed.

Lemma srun_chain H h s u : nth_error (srun H) h = Some s -> (In u (ps_urls s) <-> on_chain (rev H) h u).
Proof.
  revert h s u. induction H as [|o H IH] using rev_ind; intros h s u.
  - destruct h; discriminate.
  - rewrite srun_snoc, rev_app_distr. simpl. destruct o as [|g|g v]; simpl.
    + rewrite <- srun_handles. intro E. destruct (Nat.lt_ge_cases h (length (srun H))) as [L|L].
      * rewrite nth_error_app1 in E by exact L. rewrite (IH h s u E). tauto.
      * rewrite nth_error_app2 in E by exact L. destruct (h - length (srun H)) as [|n]; simpl in E.
        -- inversion E; subst. simpl. split; [tauto|lia].
        -- destruct n; discriminate.
    + rewrite <- srun_handles. destruct (nth_error (srun H) g) as [sg|] eqn:Eg; simpl; intro E.
      * assert (Lg : g < length (srun H)) by (apply nth_error_Some; congruence).
        destruct (Nat.ltb_spec g (length (srun H))); [|lia].
        destruct (Nat.lt_ge_cases h (length (srun H))) as [L|L].
        -- rewrite nth_error_app1 in E by exact L. destruct (Nat.eqb_spec h (length (srun H))); [lia|].
           apply IH, E.
        -- rewrite nth_error_app2 in E by exact L.
           destruct (h - length (srun H)) as [|n] eqn:Ed; simpl in E; [|destruct n; discriminate].
           destruct (Nat.eqb_spec h (length (srun H))); [|lia]. inversion E; subst. simpl. apply IH, Eg.
      * apply nth_error_None in Eg. destruct (Nat.ltb_spec g (length (srun H))); [lia|].
        rewrite andb_false_r. apply IH, E.
    + rewrite <- srun_handles. destruct (nth_error (srun H) g) as [sg|] eqn:Eg.
      * assert (Lg : g < length (srun H)) by (apply nth_error_Some; congruence).
        destruct (ps_push_spec sg v) as [P1 P2]. destruct (ps_push sg v) as [b s'] eqn:Ep. simpl. intro E.
        destruct (Nat.eq_dec h g) as [->|N].
        -- rewrite nth_upd_same in E by exact Lg. inversion E; subst s'. rewrite <- (IH g sg u Eg).
           destruct (in_dec string_dec v (ps_urls sg)) as [I|I].
           ++ specialize (P1 I). inversion P1; subst. split; [tauto|]. intros [Hu|(_ & _ & ->)]; assumption.
           ++ destruct (P2 I) as (s'' & E1 & E2). inversion E1; subst. rewrite E2. simpl. intuition congruence.
        -- rewrite nth_upd_other in E by congruence. rewrite (IH h s u E). intuition congruence.
      * simpl. intro E. rewrite (IH h s u E). apply nth_error_None in Eg. split; [tauto|].
        intros [Hu|(-> & L & _)]; [exact Hu|lia].
Qed.

Lemma srun_nodup H h s : nth_error (srun H) h = Some s -> NoDup (ps_urls s).
Proof.
  revert h s. induction H as [|o H IH] using rev_ind; intros h s.
  - destruct h; discriminate.
  - rewrite srun_snoc. destruct o as [|g|g v]; simpl.
    + intro E. apply nth_error_In in E. apply in_app_iff in E. destruct E as [E|[<-|[]]].
      * apply In_nth_error in E. destruct E as [n E]. apply (IH n s E).
      * constructor.
    + destruct (nth_error (srun H) g) as [sg|] eqn:Eg; simpl; intro E; [|apply (IH h s E)].
      apply nth_error_In in E. apply in_app_iff in E. destruct E as [E|[<-|[]]].
      * apply In_nth_error in E. destruct E as [n E]. apply (IH n s E).
      * apply (IH g sg Eg).
    + destruct (nth_error (srun H) g) as [sg|] eqn:Eg; simpl; [|apply IH].
      pose proof (ps_push_nodup sg v (IH g sg Eg)) as Hn.
      destruct (ps_push sg v) as [b s'] eqn:Ep. simpl in *. intro E.
      destruct (Nat.eq_dec h g) as [->|N].
      * rewrite nth_upd_same in E; [inversion E; subst; exact Hn|apply nth_error_Some; congruence].
      * rewrite nth_upd_other in E by congruence. apply (IH h s E).
Qed.

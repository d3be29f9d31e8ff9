(** Model of crates/syntax/src/compare.rs ([impl Compare for Value]). *)
From Verif Require Import Prelude Json.

(** compare.rs 22-32: the inner loop over [b.iter().zip(selected.iter_mut())].
    Outer [None]: a panic inside a comparison; inner [None]: no item selected. *)
Fixpoint pick (f : json -> option bool) (l : list (json * bool)) : option (option (list (json * bool))) :=
  match l with
  | [] => Some None
  | (y, sel) :: l' =>
      let next := match pick f l' with
                  | Some (Some r) => Some (Some ((y, sel) :: r))
                  | o => o
                  end in
      if sel then next
      else match f y with
           | None => None
           | Some true => Some (Some ((y, true) :: l'))
           | Some false => next
           end
  end.

(** compare.rs 9-58.  [None] is the panic of [expect("invalid JSON-LD")]. *)
Fixpoint compare (a b : json) {struct a} : option bool :=
  match a, b with
  | JNull, JNull => Some true
  | JBool x, JBool y => Some (Bool.eqb x y)
  | JNum x, JNum y => Some (streq x y)
  | JStr x, JStr y => Some (streq x y)
  | JArr x, JArr y =>
      if length x =? length y then
        (fix items (x : list json) (sel : list (json * bool)) : option bool :=
           match x with
           | [] => Some true
           | u :: x' =>
               match pick (compare u) sel with
               | None => None
               | Some None => Some false
               | Some (Some sel') => items x' sel'
               end
           end) x (map (fun v => (v, false)) y)
      else Some false
  | JObj x, JObj y =>
      if length x =? length y then
        (fix entries (x : list (string * json)) : option bool :=
           match x with
           | [] => Some true
           | (k, u) :: x' =>
               match get_unique k y with
               | Err _ => None
               | Ok None => Some false
               | Ok (Some v) =>
                   match compare u v with
                   | None => None
                   | Some false => Some false
                   | Some true => entries x'
                   end
               end
           end) x
      else Some false
  | _, _ => Some false
  end.

(** ** Specification: equality up to reordering of array items and object entries at
    every depth. *)
Inductive jeq : json -> json -> Prop :=
| jeq_null : jeq JNull JNull
| jeq_bool b : jeq (JBool b) (JBool b)
| jeq_num n : jeq (JNum n) (JNum n)
| jeq_str s : jeq (JStr s) (JStr s)
| jeq_arr x y y' : Permutation y y' -> Forall2 jeq x y' -> jeq (JArr x) (JArr y)
| jeq_obj x y y' : Permutation y y' ->
    Forall2 (fun e e' => fst e = fst e' /\ jeq (snd e) (snd e')) x y' ->
    jeq (JObj x) (JObj y).

(** ** Proofs *)
Lemma jeq_refl a : jeq a a.
Proof.
  induction a as [|x0|x0|x0|l IH|l IH] using json_ind'; try constructor.
  - apply jeq_arr with l; [apply Permutation_refl|]. induction IH; constructor; auto.
  - apply jeq_obj with l; [apply Permutation_refl|]. induction IH; constructor; auto.
Qed.

Lemma Forall2_perm_l {A B} (R : A -> B -> Prop) x x' y :
  Permutation x x' -> Forall2 R x y -> exists y', Permutation y y' /\ Forall2 R x' y'.
Proof.
  intro P. revert y. induction P; intros ys H.
  - exists ys. split; [apply Permutation_refl|exact H].
  - inversion H as [|? b ? ys' Hr Hf]; subst. destruct (IHP ys' Hf) as (y' & P' & F').
    exists (b :: y'). split; [constructor; exact P'|constructor; assumption].
  - inversion H as [|? b ? ys' Hr Hf]; subst. inversion Hf as [|? c ? ys'' Hr' Hf']; subst.
    exists (c :: b :: ys''). split; [constructor|]. repeat constructor; assumption.
  - destruct (IHP1 ys H) as (y1 & P1' & F1). destruct (IHP2 y1 F1) as (y2 & P2' & F2).
    exists y2. split; [apply Permutation_trans with y1; assumption|exact F2].
Qed.

Lemma Forall2_sym_cond {A} (R : A -> A -> Prop) x y :
  Forall (fun a => forall b, R a b -> R b a) x -> Forall2 R x y -> Forall2 R y x.
Proof.
  intros F H. induction H; constructor; inversion F; subst; auto.
Qed.

Lemma Forall2_trans_cond {A} (R : A -> A -> Prop) x y z :
  Forall (fun a => forall b c, R a b -> R b c -> R a c) x ->
  Forall2 R x y -> Forall2 R y z -> Forall2 R x z.
Proof.
  intros F H. revert z. induction H as [|a b x y Hab Hxy IH]; intros z Hz; inversion Hz; subst;
    constructor; inversion F; subst; eauto.
Qed.

Lemma jeq_sym a : forall b, jeq a b -> jeq b a.
Proof.
  induction a as [|x0|x0|x0|l IH|l IH] using json_ind'; intros b H; inversion H; subst; try constructor.
  - match goal with P : Permutation y ?y', F : Forall2 jeq l ?y' |- _ =>
      pose proof (Forall2_sym_cond _ _ _ IH F) as F';
      destruct (Forall2_perm_l _ _ _ _ (Permutation_sym P) F') as (l' & P' & F'') end.
    apply jeq_arr with l'; assumption.
  - match goal with P : Permutation y ?y', F : Forall2 ?R l ?y' |- _ =>
      assert (F' : Forall2 R y' l);
      [apply Forall2_sym_cond; [|exact F]|
       destruct (Forall2_perm_l _ _ _ _ (Permutation_sym P) F') as (l' & P' & F'')] end.
    + eapply Forall_impl; [|exact IH]. simpl. intros e He e' [E J]. split; [auto|apply He, J].
    + apply jeq_obj with l'; assumption.
Qed.

Lemma jeq_trans a : forall b c, jeq a b -> jeq b c -> jeq a c.
Proof.
  induction a as [|x0|x0|x0|l IH|l IH] using json_ind'; intros b c H1 H2;
    inversion H1; subst; inversion H2; subst; try constructor.
  - match goal with P1 : Permutation y ?y1, F1 : Forall2 jeq l ?y1,
                    P2 : Permutation ?z ?z1, F2 : Forall2 jeq y ?z1 |- _ =>
      destruct (Forall2_perm_l _ _ _ _ P1 F2) as (z2 & P3 & F3);
      apply jeq_arr with z2; [apply Permutation_trans with z1; assumption|];
      apply Forall2_trans_cond with y1; [exact IH|exact F1|exact F3] end.
  - match goal with P1 : Permutation y ?y1, F1 : Forall2 ?R l ?y1,
                    P2 : Permutation ?z ?z1, F2 : Forall2 ?R y ?z1 |- _ =>
      destruct (Forall2_perm_l _ _ _ _ P1 F2) as (z2 & P3 & F3);
      apply jeq_obj with z2; [apply Permutation_trans with z1; assumption|];
      apply Forall2_trans_cond with y1; [|exact F1|exact F3] end.
    eapply Forall_impl; [|exact IH]. simpl. intros e He e1 e2 [E1 J1] [E2 J2].
    split; [congruence|]. eapply He; eassumption.
Qed.

(** The items not selected yet. *)
Definition unsel (l : list (json * bool)) : list json :=
  map fst (filter (fun p => negb (snd p)) l).

Lemma unsel_init y : unsel (map (fun v => (v, false)) y) = y.
Proof. unfold unsel. induction y; simpl; [reflexivity|]. f_equal. assumption. Qed.

(** Behaviour of [pick] when comparisons decide the relation [R]. *)
Lemma pick_spec f (R : json -> Prop) l :
  Forall (fun y => exists r, f y = Some r /\ (r = true <-> R y)) (unsel l) ->
  exists o, pick f l = Some o /\
  match o with
  | Some l' => exists y, R y /\ Permutation (unsel l) (y :: unsel l')
  | None => forall y, In y (unsel l) -> ~ R y
  end.
Proof.
  induction l as [|[y sel] l IH]; simpl; intro H.
  - exists None. split; [reflexivity|]. intros y [].
  - destruct sel; simpl in *.
    + destruct IH as (o & E & S); [exact H|]. rewrite E. destruct o as [l'|].
      * exists (Some ((y, true) :: l')). split; [reflexivity|]. exact S.
      * exists None. split; [reflexivity|]. exact S.
    + unfold unsel in H. simpl in H. inversion H as [|? ? (r & Er & Hr) Hl]; subst. rewrite Er.
      destruct r.
      * exists (Some ((y, true) :: l)). split; [reflexivity|]. exists y. split; [apply Hr; reflexivity|].
        apply Permutation_refl.
      * destruct IH as (o & E & S); [exact Hl|]. rewrite E. destruct o as [l'|].
        -- exists (Some ((y, false) :: l')). split; [reflexivity|]. destruct S as (z & Rz & P).
           exists z. split; [exact Rz|]. unfold unsel. simpl. fold (unsel l') (unsel l).
           apply Permutation_trans with (y :: z :: unsel l'); [constructor; exact P|constructor].
        -- exists None. split; [reflexivity|]. intros z [->|Hz] Rz.
           ++ apply Hr in Rz. discriminate.
           ++ apply (S z Hz Rz).
Qed.

(** The greedy choice can be completed whenever a matching exists. *)
Lemma greedy u x y1 ys z :
  jeq u z -> Permutation ys (z :: y1) ->
  (exists y', Permutation ys y' /\ Forall2 jeq (u :: x) y') ->
  exists y', Permutation y1 y' /\ Forall2 jeq x y'.
Proof.
  intros Huz P (y' & P' & F). inversion F as [|? w ? w' Huw Fx]; subst.
  assert (PP : Permutation (z :: y1) (w :: w')).
  { apply Permutation_trans with ys; [apply Permutation_sym; exact P|exact P']. }
  assert (Hz : In z (w :: w')) by (apply (Permutation_in _ PP); left; reflexivity).
  destruct Hz as [->|Hz].
  - apply Permutation_cons_inv in PP. exists w'. split; assumption.
  - apply in_split in Hz. destruct Hz as (w1 & w2 & ->).
    assert (P1 : Permutation y1 (w1 ++ w :: w2)).
    { apply Permutation_cons_inv with z.
      apply Permutation_trans with (w :: w1 ++ z :: w2); [exact PP|].
      apply Permutation_trans with (w :: z :: w1 ++ w2).
      - constructor. apply Permutation_sym, Permutation_middle.
      - apply Permutation_trans with (z :: w :: w1 ++ w2); [constructor|].
        constructor. apply Permutation_middle. }
    apply Forall2_app_inv_r in Fx. destruct Fx as (x1 & x2 & F1 & F2 & ->).
    inversion F2 as [|v ? x2' ? Hvz F2']; subst.
    exists (w1 ++ w :: w2). split; [exact P1|].
    apply Forall2_app; [exact F1|]. constructor; [|exact F2'].
    apply jeq_trans with z; [exact Hvz|]. apply jeq_trans with u; [apply jeq_sym; exact Huz|exact Huw].
Qed.

Lemma Forall_perm {A} (P : A -> Prop) l m : Permutation l m -> Forall P l -> Forall P m.
Proof. intros E H. rewrite Forall_forall in *. intros x Hx. apply H. apply (Permutation_in _ (Permutation_sym E) Hx). Qed.

Lemma compare_correct a : forall b, unique_keys a -> unique_keys b ->
  exists r, compare a b = Some r /\ (r = true <-> jeq a b).
Proof.
  induction a as [|x|x|x|x IH|x IH] using json_ind'; intros [|y|y|y|y|y] Ua Ub; simpl;
    try (eexists; split; [reflexivity|]; split; intro H; [discriminate|inversion H]).
  - eexists; split; [reflexivity|]. split; constructor.
  - eexists; split; [reflexivity|]. rewrite eqb_true_iff. split; [intros ->; constructor|intro H; inversion H; reflexivity].
  - eexists; split; [reflexivity|]. rewrite streq_true. split; [intros ->; constructor|intro H; inversion H; reflexivity].
  - eexists; split; [reflexivity|]. rewrite streq_true. split; [intros ->; constructor|intro H; inversion H; reflexivity].
  - inversion Ua as [| | | |? Fx|]; subst. inversion Ub as [| | | |? Fy|]; subst.
    destruct (Nat.eqb_spec (length x) (length y)) as [L|L].
    + set (items := fix items (x : list json) (sel : list (json * bool)) : option bool :=
           match x with
           | [] => Some true
           | u :: x' =>
               match pick (compare u) sel with
               | None => None
               | Some None => Some false
               | Some (Some sel') => items x' sel'
               end
           end).
      assert (G : forall x, Forall (fun a => forall b, unique_keys a -> unique_keys b ->
                    exists r, compare a b = Some r /\ (r = true <-> jeq a b)) x ->
                  Forall unique_keys x ->
                  forall sel, Forall unique_keys (unsel sel) -> length x = length (unsel sel) ->
                  exists r, items x sel = Some r /\
                    (r = true <-> exists y', Permutation (unsel sel) y' /\ Forall2 jeq x y')).
      { clear. induction x as [|u x IHx]; intros IH Fx sel Fs L.
        - exists true. split; [reflexivity|]. split; [|reflexivity]. intros _.
          exists []. destruct (unsel sel); [split; constructor|discriminate].
        - inversion IH as [|? ? Hu IH']; subst. inversion Fx as [|? ? Uu Fx']; subst.
          simpl. destruct (pick_spec (compare u) (jeq u) sel) as (o & E & S).
          { rewrite Forall_forall in Fs |- *. intros v Hv. apply Hu; [exact Uu|apply Fs, Hv]. }
          rewrite E. destruct o as [sel'|].
          + destruct S as (z & Rz & P).
            destruct (IHx IH' Fx' sel') as (r & Er & Hr).
            { apply (Forall_perm _ _ _ P) in Fs. inversion Fs; assumption. }
            { apply Permutation_length in P. simpl in *. lia. }
            exists r. split; [exact Er|]. rewrite Hr. split.
            * intros (y' & P' & F). exists (z :: y'). split; [|constructor; assumption].
              apply Permutation_trans with (z :: unsel sel'); [exact P|constructor; exact P'].
            * intro M. apply (greedy u x (unsel sel') (unsel sel) z Rz P M).
          + exists false. split; [reflexivity|]. split; [discriminate|].
            intros (y' & P & F). inversion F as [|? w ? w' Huw Fw]; subst. exfalso.
            apply (S w); [|exact Huw]. apply (Permutation_in _ (Permutation_sym P)). left. reflexivity. }
      destruct (G x IH Fx (map (fun v => (v, false)) y)) as (r & E & Hr).
      { rewrite unsel_init. exact Fy. }
      { rewrite unsel_init. exact L. }
      exists r. split; [exact E|]. rewrite Hr, unsel_init. split.
      * intros (y' & P & F). apply jeq_arr with y'; assumption.
      * intro J. inversion J; subst. eexists; split; eassumption.
    + eexists; split; [reflexivity|]. split; [discriminate|]. intro J. inversion J as [| | | |? ? y' P F|]; subst. exfalso. apply L.
      apply Forall2_length in F. rewrite F. apply Permutation_length, Permutation_sym, P.
  - inversion Ua as [| | | | |? Nx Fx]; subst. inversion Ub as [| | | | |? Ny Fy]; subst.
    destruct (Nat.eqb_spec (length x) (length y)) as [L|L].
    + set (entries := fix entries (x : list (string * json)) : option bool :=
           match x with
           | [] => Some true
           | (k, u) :: x' =>
               match get_unique k y with
               | Err _ => None
               | Ok None => Some false
               | Ok (Some v) =>
                   match compare u v with
                   | None => None
                   | Some false => Some false
                   | Some true => entries x'
                   end
               end
           end).
      assert (G : forall x, Forall (fun e => forall b, unique_keys (snd e) -> unique_keys b ->
                    exists r, compare (snd e) b = Some r /\ (r = true <-> jeq (snd e) b)) x ->
                  Forall (fun e => unique_keys (snd e)) x ->
                  exists r, entries x = Some r /\
                    (r = true <-> Forall (fun e => exists v, assoc (fst e) y = Some v /\ jeq (snd e) v) x)).
      { clear - Ny Fy. induction x as [|[k u] x IHx]; intros IH Fx.
        - exists true. split; [reflexivity|]. split; [constructor|reflexivity].
        - inversion IH as [|? ? Hu IH']; subst. inversion Fx as [|? ? Uu Fx']; subst. simpl in *.
          rewrite (get_unique_nodup k y Ny). destruct (assoc k y) as [v|] eqn:Ea.
          + assert (Uv : unique_keys v).
            { apply assoc_Some_In in Ea. rewrite Forall_forall in Fy. apply (Fy _ Ea). }
            destruct (Hu v Uu Uv) as (r & Er & Hr). rewrite Er. destruct r.
            * destruct (IHx IH' Fx') as (r' & Er' & Hr'). exists r'. split; [exact Er'|].
              rewrite Hr'. split.
              -- intro F. constructor; [|exact F]. simpl. exists v. split; [exact Ea|apply Hr; reflexivity].
              -- intro F. inversion F; assumption.
            * exists false. split; [reflexivity|]. split; [discriminate|]. intro F.
              inversion F as [|? ? (w & Ew & J) ?]; subst. simpl in *. apply Hr. congruence.
          + exists false. split; [reflexivity|]. split; [discriminate|]. intro F.
            inversion F as [|? ? (w & Ew & J) ?]; subst. simpl in *. congruence. }
      destruct (G x IH Fx) as (r & E & Hr). exists r. split; [exact E|]. rewrite Hr. clear - Nx Ny L. split.
      * intro F.
        assert (M : exists y', incl y' y /\ Forall2 (fun e e' => fst e = fst e' /\ jeq (snd e) (snd e')) x y').
        { clear - F. induction F as [|[k u] x (v & Ev & J) F IHF].
          - exists []. split; [intros ? []|constructor].
          - destruct IHF as (y' & I & F'). exists ((k, v) :: y'). split.
            + intros e [<-|He]; [apply assoc_Some_In, Ev|apply I, He].
            + constructor; [split; [reflexivity|exact J]|exact F']. }
        destruct M as (y' & I & F'). apply jeq_obj with y'; [|exact F'].
        apply Permutation_sym. apply NoDup_Permutation_bis.
        -- assert (K : keys y' = keys x).
           { clear - F'. unfold keys. induction F' as [|? ? ? ? [E _] ? IH]; simpl; [reflexivity|]. rewrite IH, E. reflexivity. }
           apply (NoDup_map_inv fst). unfold keys in K. rewrite K. exact Nx.
        -- apply Forall2_length in F'. rewrite <- F', L. apply Nat.le_refl.
        -- exact I.
      * intro J. inversion J as [| | | | |? ? y' P F']; subst.
        rewrite Forall_forall. intros e He.
        assert (Q : exists e', In e' y' /\ fst e = fst e' /\ jeq (snd e) (snd e')).
        { clear - F' He. induction F' as [|a b x y Hab F IH]; [destruct He|].
          destruct He as [->|He]; [exists b; split; [left; reflexivity|exact Hab]|].
          destruct (IH He) as (e' & I & H). exists e'. split; [right; exact I|exact H]. }
        destruct Q as ([k' v'] & I & E & Jv). simpl in *. exists v'. split; [|exact Jv].
        rewrite E. apply assoc_In_nodup; [exact Ny|]. apply (Permutation_in _ (Permutation_sym P) I).
    + eexists; split; [reflexivity|]. split; [discriminate|]. intro J. inversion J as [| | | | |? ? y' P F']; subst.
      exfalso. apply L. apply Forall2_length in F'. rewrite F'. apply Permutation_length, Permutation_sym, P.
Qed.

(** Duplicate keys make the comparison panic. *)
Lemma compare_panics :
  compare (JObj [("a", JNull); ("b", JNull)]) (JObj [("a", JNull); ("a", JNull)]) = None.
Proof. reflexivity. Qed.

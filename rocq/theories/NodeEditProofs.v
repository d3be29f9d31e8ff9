(** Proofs about histories of edits. *)
From Verif Require Import Prelude Json Enums LangTag LangString Str Keyword Container ContextSyntax Ctx Object ObjectEq ObjectJson Flatten FlattenEffect NodeEdit.

Section Edits.
  Context {A : Type}.
  Variable eqv : A -> A -> bool.
  Notation pmap := (@pmap A).
  Notation push_new := (push_new eqv).
  Notation apply := (apply eqv).

  Lemma eqb_refl (k : id) : id_eqb k k = true. Proof. destruct (id_eqb_spec k k); congruence. Qed.
  Lemma get_change k k' f (l : pmap) : get_id k (change k' f l) = if id_eqb k k' then option_map f (get_id k l) else get_id k l.
  Proof.
    induction l as [|[q w] l IH]; cbn; [destruct (id_eqb k k'); reflexivity|]. destruct (id_eqb_spec k' q) as [->|N]; cbn.
    - destruct (id_eqb_spec k q); reflexivity.
    - rewrite IH. destruct (id_eqb_spec k q) as [->|M]; [|reflexivity]. destruct (id_eqb_spec q k'); [congruence|reflexivity].
  Qed.
  Lemma change_keys k f (l : pmap) : map fst (change k f l) = map fst l.
  Proof. induction l as [|[q w] l IH]; cbn; [reflexivity|]. destruct (id_eqb k q); cbn; congruence. Qed.
  (** Put: change what is there or add it. *)
  Definition put_with (k : id) (f : list A -> list A) (new : list A) (l : pmap) : pmap :=
    match get_id k l with Some _ => change k f l | None => l ++ [(k, new)] end.
  Lemma get_put k k' f new (l : pmap) : get_id k (put_with k' f new l) =
    if id_eqb k k' then Some (match get_id k l with Some w => f w | None => new end) else get_id k l.
  Proof.
    unfold put_with. destruct (get_id k' l) as [w|] eqn:G.
    - rewrite get_change. destruct (id_eqb_spec k k') as [->|N]; [rewrite G; reflexivity|reflexivity].
    - rewrite get_app. cbn. destruct (id_eqb_spec k k') as [->|N]; [rewrite G; reflexivity|]. destruct (get_id k l); reflexivity.
  Qed.
  Lemma put_nodup k f new (l : pmap) : NoDup (map fst l) -> NoDup (map fst (put_with k f new l)).
  Proof.
    unfold put_with. destruct (get_id k l) eqn:G; intros D; [rewrite change_keys; exact D|].
    rewrite map_app. cbn.
    apply get_none in G. clear -D G. induction (map fst l) as [|x m IH]; cbn; [constructor; [intros []|constructor]|].
    inversion D as [|? ? NI D']; subst. constructor.
    - rewrite in_app_iff. intros [I|[E|[]]]; [auto|]. subst. apply G. left; reflexivity.
    - apply IH; [|exact D']. intros I. apply G. right; exact I.
  Qed.

  Lemma swap_perm k (l : pmap) : NoDup (map fst l) -> Permutation (swap_remove k l) (filter (fun p => negb (id_eqb k (fst p))) l).
  Proof.
    induction l as [|[q w] l IH]; cbn; intros D; [constructor|]. inversion D as [|? ? NI D']; subst.
    destruct (id_eqb_spec k q) as [->|N]; cbn; [|constructor; apply IH, D'].
    assert (E : filter (fun p => negb (id_eqb q (fst p))) l = l).
    { clear -NI. induction l as [|[a b] l IH]; cbn; [reflexivity|]. destruct (id_eqb_spec q a) as [->|M]; cbn.
      - exfalso. apply NI. left; reflexivity.
      - f_equal. apply IH. intros I. apply NI. right; exact I. }
    rewrite E. clear. destruct (rev l) as [|e r] eqn:R.
    - apply (f_equal (@rev _)) in R. rewrite rev_involutive in R. subst. constructor.
    - apply (f_equal (@rev _)) in R. rewrite rev_involutive in R. subst. cbn. apply Permutation_cons_append.
  Qed.
  Lemma perm_get k (l m : pmap) : NoDup (map fst l) -> Permutation l m -> get_id k l = get_id k m.
  Proof.
    intros D P. assert (D' : NoDup (map fst m)) by (eapply Permutation_NoDup; [apply Permutation_map, P|exact D]).
    destruct (get_id k l) as [w|] eqn:G.
    - symmetry. apply get_id_nodup; [exact D'|]. eapply Permutation_in; [exact P|]. apply get_id_in, G.
    - destruct (get_id k m) as [w|] eqn:H; [|reflexivity]. apply get_id_in in H.
      apply (Permutation_in _ (Permutation_sym P)) in H. rewrite (get_id_nodup _ _ _ D H) in G. discriminate.
  Qed.
  Lemma filter_nodup (p : id * list A -> bool) (l : pmap) : NoDup (map fst l) -> NoDup (map fst (filter p l)).
  Proof.
    induction l as [|x l IH]; cbn; intros D; [constructor|]. inversion D as [|? ? NI D']; subst. destruct (p x); [|apply IH, D'].
    cbn. constructor; [|apply IH, D']. intros I. apply NI. apply in_map_iff in I. destruct I as (y & E & I). apply filter_In in I.
    rewrite <- E. apply List.in_map, I.
  Qed.
  Lemma swap_nodup k (l : pmap) : NoDup (map fst l) -> NoDup (map fst (swap_remove k l)).
  Proof.
    intros D. eapply Permutation_NoDup; [apply Permutation_map, Permutation_sym, swap_perm, D|]. apply filter_nodup, D.
  Qed.
  Lemma get_filter k k' (l : pmap) : get_id k (filter (fun p => negb (id_eqb k' (fst p))) l) = if id_eqb k k' then None else get_id k l.
  Proof.
    induction l as [|[q w] l IH]; cbn; [destruct (id_eqb k k'); reflexivity|]. destruct (id_eqb_spec k' q) as [->|N]; cbn.
    - rewrite IH. destruct (id_eqb_spec k q); reflexivity.
    - rewrite IH. destruct (id_eqb_spec k q) as [->|M]; [|reflexivity]. destruct (id_eqb_spec q k'); [congruence|reflexivity].
  Qed.
  Lemma get_swap k k' (l : pmap) : NoDup (map fst l) -> get_id k (swap_remove k' l) = if id_eqb k k' then None else get_id k l.
  Proof. intros D. rewrite (perm_get k _ _ (swap_nodup k' l D) (swap_perm k' l D)). apply get_filter. Qed.

  (** One edit, one property. *)
  Definition take (w : list A) (o : bool * A) : list A := if fst o then push_new w (snd o) else w ++ [snd o].
  Definition or_nil (s : option (list A)) : list A := match s with Some w => w | None => [] end.
  Lemma take_false vs : forall w, fold_left take (map (pair false) vs) w = w ++ vs.
  Proof. induction vs as [|v vs IH]; cbn; intros w; [rewrite app_nil_r; reflexivity|]. rewrite IH. unfold take; cbn. rewrite <- app_assoc. reflexivity. Qed.
  Lemma take_true vs : forall w, fold_left take (map (pair true) vs) w = fold_left push_new vs w.
  Proof. induction vs as [|v vs IH]; cbn; intros w; [reflexivity|]. rewrite IH. reflexivity. Qed.

  (** The two edits made of several are the sequence of these. *)
  Definition atoms (e : edit A) : list (edit A) :=
    match e with
    | ExtendUnique m => map (fun p => InsertAllUnique (fst p) (snd p)) m
    | Extend m => map (fun p => InsertAll (fst p) (snd p)) m
    | e => [e]
    end.
  Definition atomic (e : edit A) : Prop := match e with ExtendUnique _ | Extend _ => False | _ => True end.
  Lemma fold_map {B C D} (f : D -> C -> D) (g : B -> C) l : forall d, fold_left f (map g l) d = fold_left (fun d x => f d (g x)) l d.
  Proof. induction l as [|x l IH]; cbn; intros d; [reflexivity|apply IH]. Qed.
  Lemma apply_atoms l e : apply l e = fold_left apply (atoms e) l.
  Proof. destruct e; try reflexivity; cbn [atoms]; rewrite fold_map; reflexivity. Qed.
  Lemma atoms_atomic e : Forall atomic (atoms e).
  Proof. destruct e; cbn; try (repeat constructor; fail); apply Forall_forall; intros x I; apply in_map_iff in I; destruct I as (p & <- & _); exact I. Qed.
  Lemma run_atoms h : forall l, fold_left apply h l = fold_left apply (flat_map atoms h) l.
  Proof. induction h as [|e h IH]; intros l; [reflexivity|]. cbn [flat_map fold_left]. rewrite fold_left_app, IH, apply_atoms. reflexivity. Qed.
  Lemma given_pair (u : bool) k (m : list (id * list A)) :
    map (pair u) (given_for k m) = flat_map (fun p => if id_eqb k (fst p) then map (pair u) (snd p) else []) m.
  Proof. unfold given_for. induction m as [|[q vs] m IH]; cbn; [reflexivity|]. rewrite map_app, IH. destruct (id_eqb k q); reflexivity. Qed.
  Lemma flat_map_map {B C D} (f : C -> list D) (g : B -> C) l : flat_map f (map g l) = flat_map (fun x => f (g x)) l.
  Proof. induction l as [|x l IH]; cbn; [reflexivity|congruence]. Qed.
  Lemma offers_atoms k e : offers k e = flat_map (offers k) (atoms e).
  Proof. destruct e; cbn [atoms flat_map]; rewrite ?app_nil_r; try reflexivity; rewrite flat_map_map; cbn [offers]; apply given_pair. Qed.
  Lemma mentions_atoms k e : mentions k e <-> Exists (mentions k) (atoms e).
  Proof.
    destruct e; cbn [atoms]; try (split; [intros H; left; exact H|intros H; inversion H as [? ? X|? ? X]; [exact X|inversion X]]).
    all: rewrite Exists_exists; cbn; rewrite in_map_iff; split.
    1,3: intros ([q vs] & E & I); eexists; split; [apply in_map_iff; exists (q, vs); split; [reflexivity|exact I]|cbn in *; congruence].
    all: intros (x & I & M); apply in_map_iff in I; destruct I as (p & <- & I); exists p; cbn in M; auto.
  Qed.
  Lemma forgets_atoms k e : forgets k e -> atoms e = [e].
  Proof. intros [->|[->|(vs & ->)]]; reflexivity. Qed.
  Lemma not_forgets_atoms k e : ~ forgets k e -> Forall (fun x => ~ forgets k x) (atoms e).
  Proof.
    intros N. destruct e; cbn [atoms]; try (constructor; [exact N|constructor]).
    all: apply Forall_forall; intros x I; apply in_map_iff in I; destruct I as (p & <- & _); intros [E|[E|(vs & E)]]; discriminate.
  Qed.

  Lemma apply_nodup e : atomic e -> forall l, NoDup (map fst l) -> NoDup (map fst (apply l e)).
  Proof.
    intros At l D. destruct e; try destruct At; cbn [NodeEdit.apply]; try (apply put_nodup, D).
    - apply swap_nodup, D.
    - constructor.
  Qed.
  Lemma run_nodup h : forall l, NoDup (map fst l) -> NoDup (map fst (fold_left apply h l)).
  Proof.
    intros l. rewrite run_atoms. assert (F : Forall atomic (flat_map atoms h)).
    { induction h as [|e h IH]; cbn; [constructor|]. apply Forall_app. split; [apply atoms_atomic|exact IH]. }
    revert l. induction F as [|e h' At F IH]; cbn [fold_left]; intros l D; [exact D|]. apply IH, apply_nodup; assumption.
  Qed.

  (** An edit that does not forget [k]. *)
  Lemma get_kept e k l : atomic e -> NoDup (map fst l) -> ~ forgets k e ->
    (mentions k e -> get_id k (apply l e) = Some (fold_left take (offers k e) (or_nil (get_id k l)))) /\
    (~ mentions k e -> get_id k (apply l e) = get_id k l /\ offers k e = []).
  Proof.
    intros At D NF. destruct e as [q v|q v|q vs|q vs|q vs|m|m|q|]; try destruct At; cbn [NodeEdit.apply mentions offers].
    - change (p_insert q v l) with (put_with q (fun w => w ++ [v]) [v] l). rewrite get_put.
      split; intros M; [subst q; rewrite eqb_refl; cbn; destruct (get_id k l); reflexivity|].
      destruct (id_eqb_spec k q); [contradiction|auto].
    - change (p_insert_unique eqv q v l) with (put_with q (fun w => push_new w v) [v] l). rewrite get_put.
      split; intros M; [subst q; rewrite eqb_refl; cbn; destruct (get_id k l); reflexivity|].
      destruct (id_eqb_spec k q); [contradiction|auto].
    - change (p_insert_all q vs l) with (put_with q (fun w => w ++ vs) vs l). rewrite get_put.
      split; intros M; [subst q; rewrite eqb_refl, take_false; destruct (get_id k l); reflexivity|].
      destruct (id_eqb_spec k q); [contradiction|auto].
    - change (p_insert_all_unique eqv q vs l) with (put_with q (fun w => fold_left push_new vs w) (fold_left push_new vs []) l). rewrite get_put.
      split; intros M; [subst q; rewrite eqb_refl, take_true; destruct (get_id k l); reflexivity|].
      destruct (id_eqb_spec k q); [contradiction|auto].
    - change (p_set q vs l) with (put_with q (fun _ => vs) vs l). rewrite get_put.
      split; intros M; [subst q; exfalso; apply NF; right; right; exists vs; reflexivity|].
      destruct (id_eqb_spec k q); [contradiction|auto].
    - split; [intros []|]. intros _. rewrite get_swap by exact D. destruct (id_eqb_spec k q) as [->|N]; [|auto].
      exfalso. apply NF. right; left; reflexivity.
    - exfalso. apply NF. left; reflexivity.
  Qed.
  Lemma run_kept h : Forall atomic h -> forall k l, NoDup (map fst l) -> Forall (fun e => ~ forgets k e) h ->
    p_get k (fold_left apply h l) = fold_left take (flat_map (offers k) h) (p_get k l) /\
    (p_contains k (fold_left apply h l) = true <-> p_contains k l = true \/ Exists (mentions k) h).
  Proof.
    induction 1 as [|e h At F IH]; cbn [fold_left flat_map]; intros k l D NF.
    - split; [reflexivity|]. split; [auto|]. intros [X|X]; [exact X|inversion X].
    - inversion NF as [|? ? N1 N2]; subst. destruct (get_kept e k l At D N1) as [H1 H2].
      destruct (IH k (apply l e) (apply_nodup e At l D) N2) as [I1 I2]. rewrite I1, I2, fold_left_app.
      assert (Dec : mentions k e \/ ~ mentions k e).
      { destruct e as [q v|q v|q vs|q vs|q vs|m|m|q|]; cbn; try tauto; try (destruct (id_eqb_spec k q); tauto); destruct At. }
      unfold p_get, p_contains. destruct Dec as [M|M].
      + rewrite (H1 M). split; [destruct (get_id k l); reflexivity|]. split; [intros _; right; left; exact M|auto].
      + destruct (H2 M) as [E O]. rewrite E, O. split; [reflexivity|]. split.
        * intros [X|X]; [left; exact X|right; right; exact X].
        * intros [X|X]; [left; exact X|]. inversion X; subst; [contradiction|right; assumption].
  Qed.
  Lemma get_forgot e k l : NoDup (map fst l) -> forgets k e ->
    p_get k (apply l e) = fold_left take (offers k e) [] /\ (p_contains k (apply l e) = true <-> mentions k e).
  Proof.
    intros D F. unfold p_get, p_contains. destruct F as [->|[->|(vs & ->)]]; cbn [NodeEdit.apply offers mentions].
    - cbn. split; [reflexivity|]. split; [discriminate|intros []].
    - rewrite get_swap, eqb_refl by exact D. split; [reflexivity|]. split; [discriminate|intros []].
    - change (p_set k vs l) with (put_with k (fun _ => vs) vs l). rewrite get_put, eqb_refl, take_false.
      destruct (get_id k l); split; try reflexivity; split; reflexivity.
  Qed.

  Lemma lately_run k h r : lately k h r ->
    p_get k (run_edits eqv h) = fold_left take (flat_map (offers k) r) [] /\
    (p_contains k (run_edits eqv h) = true <-> Exists (mentions k) r).
  Proof.
    assert (Ex : forall r, Exists (mentions k) (flat_map atoms r) <-> Exists (mentions k) r).
    { intros r0. induction r0 as [|e r' IH]; cbn [flat_map]; [split; intros X; inversion X|]. rewrite Exists_app, Exists_cons, IH, (mentions_atoms k e). reflexivity. }
    assert (Of : forall r, flat_map (offers k) (flat_map atoms r) = flat_map (offers k) r).
    { intros r0. induction r0 as [|e r' IH]; cbn [flat_map]; [reflexivity|]. rewrite flat_map_app, IH, <- offers_atoms. reflexivity. }
    assert (At : forall r, Forall atomic (flat_map atoms r)).
    { intros r0. induction r0 as [|e r' IH]; cbn [flat_map]; [constructor|]. apply Forall_app. split; [apply atoms_atomic|exact IH]. }
    assert (NF : forall r, Forall (fun e => ~ forgets k e) r -> Forall (fun e => ~ forgets k e) (flat_map atoms r)).
    { induction 1 as [|e r' N F IH]; cbn [flat_map]; [constructor|]. apply Forall_app. split; [apply not_forgets_atoms, N|exact IH]. }
    unfold run_edits. intros [F|h1 e h2 -> Fe F].
    - rewrite run_atoms. destruct (run_kept _ (At h) k [] (NoDup_nil _) (NF _ F)) as [H1 H2].
      rewrite H1, H2, Of, Ex. cbn. split; [reflexivity|]. split; [intros [X|X]; [discriminate|exact X]|auto].
    - rewrite fold_left_app. cbn [fold_left]. set (l := fold_left apply h1 []).
      assert (D : NoDup (map fst l)) by apply run_nodup, NoDup_nil.
      destruct (get_forgot e k l D Fe) as [G1 G2].
      assert (D' : NoDup (map fst (apply l e))) by exact (run_nodup [e] l D).
      rewrite run_atoms. destruct (run_kept _ (At h2) k _ D' (NF _ F)) as [H1 H2].
      rewrite H1, H2, Of, Ex, G1, G2. cbn [flat_map]. rewrite fold_left_app, Exists_cons. split; reflexivity.
  Qed.

  (** What [take] takes. *)
  Definition new_flag (l : list (bool * A)) (f : list bool) (o : bool * A) : bool :=
    orb (negb (fst o)) (forallb (fun x => negb (eqv x (snd o))) (selected l f)).
  Lemma combine_snoc {B C} (l : list B) (m : list C) x y : length l = length m -> combine (l ++ [x]) (m ++ [y]) = combine l m ++ [(x, y)].
  Proof. revert m. induction l as [|a l IH]; intros [|b m] L; cbn in *; try discriminate; [reflexivity|]. f_equal. apply IH. lia. Qed.
  Lemma selected_snoc (l : list (bool * A)) f o b : length f = length l -> selected (l ++ [o]) (f ++ [b]) = selected l f ++ (if b then [snd o] else []).
  Proof.
    intros L. unfold selected. rewrite combine_snoc by (symmetry; exact L). rewrite filter_app, map_app. cbn. destruct b; reflexivity.
  Qed.
  Lemma in_selected (l : list (bool * A)) : forall f x, length f = length l ->
    (In x (selected l f) <-> exists j u, nth_error l j = Some (u, x) /\ nth_error f j = Some true).
  Proof.
    unfold selected. induction l as [|[u v] l IH]; intros [|b f] x L; try discriminate.
    - cbn. split; [intros []|]. intros ([|j] & u & E & _); discriminate.
    - cbn in L. cbn [combine filter]. assert (L' : length f = length l) by lia.
      split.
      + intros I. assert (I' : (b = true /\ v = x) \/ In x (map (fun p => snd (fst p)) (filter (fun p => snd p) (combine l f)))).
        { destruct b; cbn in I; [destruct I; auto|auto]. }
        destruct I' as [[-> ->]|I']; [exists 0, u; auto|]. apply IH in I'; [|exact L']. destruct I' as (j & w & X & Y). exists (S j), w. auto.
      + intros ([|j] & w & X & Y); cbn in X, Y.
        * injection X as -> ->. injection Y as ->. left; reflexivity.
        * assert (I : In x (map (fun p => snd (fst p)) (filter (fun p => snd p) (combine l f)))) by (apply IH; [exact L'|eauto]).
          destruct b; cbn; auto.
  Qed.
  Lemma take_taken l : exists f, taken eqv l f /\ fold_left take l [] = selected l f.
  Proof.
    induction l as [|o l IH] using rev_ind.
    - exists []. split; [|reflexivity]. split; [reflexivity|]. intros [|i] u v E; discriminate.
    - destruct IH as (f & [L T] & E). exists (f ++ [new_flag l f o]). rewrite fold_left_app. cbn [fold_left].
      rewrite E, selected_snoc by exact L. split.
      + split; [rewrite !app_length, L; reflexivity|]. intros i u v N.
        destruct (Nat.lt_ge_cases i (length l)) as [I|I].
        * rewrite nth_error_app1 in N by exact I. rewrite nth_error_app1 by lia. rewrite (T i u v N). split.
          -- intros [U (j & u' & w & J & X & Y & Z)]. split; [exact U|]. exists j, u', w. rewrite !nth_error_app1 by lia. auto.
          -- intros [U (j & u' & w & J & X & Y & Z)]. rewrite nth_error_app1 in X, Y by lia. split; [exact U|]. exists j, u', w. auto.
        * rewrite nth_error_app2 in N by exact I. destruct (i - length l) as [|n] eqn:D; [|destruct n; discriminate].
          assert (i = length l) by lia. subst i. injection N as ->. rewrite nth_error_app2 by lia.
          rewrite L, Nat.sub_diag. cbn [nth_error]. unfold new_flag; cbn [fst snd]. split.
          -- intros X. injection X as X. apply orb_false_iff in X. destruct X as [X Y]. apply negb_false_iff in X. split; [exact X|].
             assert (Z : existsb (fun x => eqv x v) (selected l f) = true).
             { clear -Y. induction (selected l f) as [|x s IHs]; cbn in *; [discriminate|]. destruct (eqv x v); cbn in *; auto. }
             apply existsb_exists in Z. destruct Z as (x & I' & Z). apply in_selected in I'; [|exact L]. destruct I' as (j & u' & P & Q).
             assert (j < length l) by (apply nth_error_Some; congruence).
             exists j, u', x. rewrite !nth_error_app1 by lia. auto.
          -- intros [-> (j & u' & w & J & X & Y & Z)]. rewrite nth_error_app1 in X, Y by lia. f_equal. cbn.
             apply Bool.not_true_is_false. intros FA. rewrite forallb_forall in FA.
             assert (W : In w (selected l f)) by (apply in_selected; [exact L|eauto]). apply FA in W. rewrite Z in W. discriminate.
      + unfold take, new_flag, NodeEdit.push_new. destruct o as [[] v]; cbn [fst snd negb orb]; [|reflexivity].
        destruct (forallb _ (selected l f)); [reflexivity|rewrite app_nil_r; reflexivity].
  Qed.
  Lemma take_unique l : Forall (fun o => fst o = true) l -> ForallOrdPairs (fun x y => eqv x y = false) (fold_left take l []).
  Proof.
    induction l as [|o l IH] using rev_ind; intros F; [constructor|]. apply Forall_app in F. destruct F as [F1 F2].
    rewrite fold_left_app. cbn [fold_left]. specialize (IH F1). inversion F2 as [|? ? U _]; subst. revert IH. generalize (fold_left take l []). intros s IH. unfold take. rewrite U. unfold NodeEdit.push_new.
    destruct (forallb _ _) eqn:X; [|exact IH]. rewrite forallb_forall in X. revert IH X. clear.
    induction s as [|x s IH]; cbn [app]; intros D X; [repeat constructor|]. inversion D as [|? ? D1 D2]; subst. constructor.
    - apply Forall_app. split; [exact D1|]. constructor; [|constructor]. specialize (X x (or_introl eq_refl)). apply negb_true_iff in X. exact X.
    - apply IH; [exact D2|]. intros y I. apply X. right; exact I.
  Qed.
  Lemma lately_exists k (h : list (edit A)) : exists r, lately k h r.
  Proof.
    induction h as [|e h IH] using rev_ind; [exists []; constructor; constructor|]. destruct IH as (r & L).
    assert (Dec : forgets k e \/ ~ forgets k e).
    { unfold forgets. destruct e as [q v|q v|q vs|q vs|q vs|m|m|q|]; try (right; intros [X|[X|(? & X)]]; discriminate).
      - destruct (id_eqb_spec k q) as [->|N]; [left; eauto|]. right. intros [X|[X|(? & X)]]; congruence.
      - destruct (id_eqb_spec k q) as [->|N]; [left; eauto|]. right. intros [X|[X|(? & X)]]; congruence.
      - left; auto. }
    destruct Dec as [F|F].
    - exists [e]. apply (LatelySince k _ h e []); auto.
    - destruct L as [G|h1 d h2 -> Fd G].
      + exists (h ++ [e]). constructor. apply Forall_app. auto.
      + exists (d :: h2 ++ [e]). apply (LatelySince k _ h1 d (h2 ++ [e])); [rewrite <- app_assoc; reflexivity|exact Fd|]. apply Forall_app. auto.
  Qed.
End Edits.

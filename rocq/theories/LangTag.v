(** Model of crates/syntax/src/utils.rs and the trait implementations of
    [LenientLangTag] in crates/syntax/src/lang.rs.  A tag is its byte list. *)
From Verif Require Import Prelude.
From Coq Require Import ZifyBool ZifyN.

Definition byte := ascii.

(** crates/syntax/src/utils.rs 6-12 ([into_smallcase]). *)
Definition smallcase (c : byte) : byte :=
  let n := N_of_ascii c in
  if ((65 <=? n) && (n <=? 90))%N then ascii_of_N (n + 32) else c.

(** utils.rs 14-26 ([case_insensitive_eq]): length test, then the indexed loop. *)
Fixpoint ci_eq_loop (a b : list byte) : bool :=
  match a, b with
  | x :: a', y :: b' =>
      if Ascii.eqb (smallcase x) (smallcase y) then ci_eq_loop a' b' else false
  | _, _ => true
  end.

Definition ci_eq (a b : list byte) : bool :=
  if Nat.eqb (length a) (length b) then ci_eq_loop a b else false.

(** utils.rs 28-32 ([case_insensitive_hash]): the bytes fed to the hasher. *)
Definition ci_hash_bytes (a : list byte) : list byte := map smallcase a.

(** utils.rs 34-53 ([case_insensitive_cmp]): the loop on index [i] becomes a
    recursion on the remaining bytes. *)
Fixpoint ci_cmp (a b : list byte) : comparison :=
  match a, b with
  | [], [] => Eq
  | [], _ :: _ => Gt
  | _ :: _, [] => Lt
  | x :: a', y :: b' =>
      match (N_of_ascii (smallcase x) ?= N_of_ascii (smallcase y))%N with
      | Eq => ci_cmp a' b'
      | o => o
      end
  end.

(** ** Specification: two bytes are the same letter up to ASCII case. *)
Definition same_letter (x y : byte) : Prop :=
  x = y \/
  (exists n, (n < 26)%N /\ x = ascii_of_N (65 + n) /\ y = ascii_of_N (97 + n)) \/
  (exists n, (n < 26)%N /\ x = ascii_of_N (97 + n) /\ y = ascii_of_N (65 + n)).

(** Decidable version used only to sweep the 65536 byte pairs. *)
Definition same_letter_b (x y : byte) : bool :=
  let a := N_of_ascii x in let b := N_of_ascii y in
  (a =? b)%N ||
  ((65 <=? a) && (a <=? 90) && (b =? a + 32))%N ||
  ((97 <=? a) && (a <=? 122) && (a =? b + 32))%N.

Lemma N_of_ascii_inj x y : N_of_ascii x = N_of_ascii y -> x = y.
Proof.
  intro H. rewrite <- (ascii_N_embedding x), <- (ascii_N_embedding y), H. reflexivity.
Qed.

Lemma same_letter_b_spec x y : same_letter_b x y = true <-> same_letter x y.
Proof.
  unfold same_letter_b, same_letter.
  rewrite !orb_true_iff, !andb_true_iff, !N.leb_le, !N.eqb_eq. split.
  - intros [[H|H]|H].
    + left. apply N_of_ascii_inj, H.
    + right. left. exists (N_of_ascii x - 65)%N.
      repeat split; [lia | |].
      * rewrite <- (ascii_N_embedding x) at 1. f_equal. lia.
      * rewrite <- (ascii_N_embedding y) at 1. f_equal. lia.
    + right. right. exists (N_of_ascii x - 97)%N.
      repeat split; [lia | |].
      * rewrite <- (ascii_N_embedding x) at 1. f_equal. lia.
      * rewrite <- (ascii_N_embedding y) at 1. f_equal. lia.
  - intros [->|[(n & Hn & -> & ->)|(n & Hn & -> & ->)]].
    + left. left. reflexivity.
    + left. right. rewrite !N_ascii_embedding by lia. lia.
    + right. rewrite !N_ascii_embedding by lia. lia.
Qed.

Lemma smallcase_N c :
  N_of_ascii (smallcase c) =
  let n := N_of_ascii c in
  if ((65 <=? n) && (n <=? 90))%N then (n + 32)%N else n.
Proof.
  unfold smallcase. cbv zeta.
  destruct ((65 <=? N_of_ascii c) && (N_of_ascii c <=? 90))%N eqn:E; [|reflexivity].
  apply andb_true_iff in E. destruct E as [E1 E2].
  apply N.leb_le in E1, E2. apply N_ascii_embedding. lia.
Qed.

Lemma smallcase_same x y : smallcase x = smallcase y <-> same_letter x y.
Proof.
  rewrite <- same_letter_b_spec. unfold same_letter_b.
  rewrite !orb_true_iff, !andb_true_iff, !N.leb_le, !N.eqb_eq.
  split.
  - intro H. apply (f_equal N_of_ascii) in H. rewrite !smallcase_N in H. cbv zeta in H.
    destruct ((65 <=? N_of_ascii x) && (N_of_ascii x <=? 90))%N eqn:Ex;
    destruct ((65 <=? N_of_ascii y) && (N_of_ascii y <=? 90))%N eqn:Ey;
    lia.
  - intro H. apply N_of_ascii_inj. rewrite !smallcase_N. cbv zeta.
    destruct ((65 <=? N_of_ascii x) && (N_of_ascii x <=? 90))%N eqn:Ex;
    destruct ((65 <=? N_of_ascii y) && (N_of_ascii y <=? 90))%N eqn:Ey;
    lia.
Qed.

Lemma ci_eq_map a b : ci_eq a b = true <-> map smallcase a = map smallcase b.
Proof.
  unfold ci_eq. split.
  - destruct (Nat.eqb_spec (length a) (length b)) as [L|L]; [|discriminate].
    revert b L. induction a as [|x a IH]; intros [|y b] L; simpl in *; try discriminate.
    + reflexivity.
    + destruct (Ascii.eqb_spec (smallcase x) (smallcase y)) as [E|E]; [|discriminate].
      intro H. rewrite E. f_equal. apply IH; [lia|exact H].
  - intro H. assert (L : length a = length b).
    { rewrite <- (map_length smallcase a), H. apply map_length. }
    rewrite L, Nat.eqb_refl. clear L. revert b H.
    induction a as [|x a IH]; intros [|y b] H; simpl in *; try discriminate; [reflexivity|].
    injection H as E H. rewrite E, Ascii.eqb_refl. apply IH. exact H.
Qed.

Lemma ci_eq_spec a b : ci_eq a b = true <-> Forall2 same_letter a b.
Proof.
  rewrite ci_eq_map. split.
  - revert b. induction a as [|x a IH]; intros [|y b] H; simpl in H; try discriminate.
    + constructor.
    + injection H as E H. constructor; [apply smallcase_same; exact E|apply IH; exact H].
  - induction 1 as [|x y a b E H IH]; simpl; [reflexivity|].
    f_equal; [apply smallcase_same; exact E|exact IH].
Qed.

Lemma ci_eq_refl a : ci_eq a a = true.
Proof. apply ci_eq_map. reflexivity. Qed.
Lemma ci_eq_sym a b : ci_eq a b = true -> ci_eq b a = true.
Proof. rewrite !ci_eq_map. auto. Qed.
Lemma ci_eq_trans a b c : ci_eq a b = true -> ci_eq b c = true -> ci_eq a c = true.
Proof. rewrite !ci_eq_map. congruence. Qed.

Lemma ci_hash_eq a b : ci_eq a b = true <-> ci_hash_bytes a = ci_hash_bytes b.
Proof. apply ci_eq_map. Qed.

Lemma ci_cmp_eq a b : ci_cmp a b = Eq <-> ci_eq a b = true.
Proof.
  rewrite ci_eq_map. revert b. induction a as [|x a IH]; intros [|y b]; simpl.
  - tauto.
  - split; discriminate.
  - split; discriminate.
  - destruct (N.compare_spec (N_of_ascii (smallcase x)) (N_of_ascii (smallcase y))) as [E|E|E].
    + apply N_of_ascii_inj in E. rewrite E, IH. split; congruence.
    + split; [discriminate|]. intro H. injection H as H _. rewrite H in E. lia.
    + split; [discriminate|]. intro H. injection H as H _. rewrite H in E. lia.
Qed.

Lemma ci_cmp_antisym a b : ci_cmp b a = CompOpp (ci_cmp a b).
Proof.
  revert b. induction a as [|x a IH]; intros [|y b]; simpl; try reflexivity.
  rewrite (N.compare_antisym (N_of_ascii (smallcase x))).
  destruct (N_of_ascii (smallcase x) ?= N_of_ascii (smallcase y))%N; simpl; auto.
Qed.

Lemma ci_cmp_trans o a b c : ci_cmp a b = o -> ci_cmp b c = o -> ci_cmp a c = o.
Proof.
  revert b c. induction a as [|x a IH]; intros [|y b] [|z c]; simpl; try congruence.
  intros H1 H2.
  destruct (N.compare_spec (N_of_ascii (smallcase x)) (N_of_ascii (smallcase y))) as [E1|E1|E1];
  destruct (N.compare_spec (N_of_ascii (smallcase y)) (N_of_ascii (smallcase z))) as [E2|E2|E2];
  destruct (N.compare_spec (N_of_ascii (smallcase x)) (N_of_ascii (smallcase z))) as [E3|E3|E3];
  try lia; try congruence; eauto.
Qed.

(** Comparing is compatible with equality on both sides. *)
Lemma ci_cmp_compat a a' b b' :
  ci_eq a a' = true -> ci_eq b b' = true -> ci_cmp a b = ci_cmp a' b'.
Proof.
  rewrite !ci_eq_map. revert a' b b'.
  induction a as [|x a IH]; intros [|x' a'] [|y b] [|y' b'] Ha Hb;
    simpl in *; try discriminate; try reflexivity.
  injection Ha as Ea Ha. injection Hb as Eb Hb. rewrite Ea, Eb.
  destruct (N_of_ascii (smallcase x') ?= N_of_ascii (smallcase y'))%N; auto.
Qed.

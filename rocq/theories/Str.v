(** Byte string operations of the Rust standard library used by the modelled code. *)
From Verif Require Import Prelude.

Infix "+++" := String.append (at level 60, right associativity).

(** [str::find] and [str::rfind] of an ASCII character: byte offset of the first / last
    occurrence. *)
Fixpoint find_char (c : ascii) (s : string) : option nat :=
  match s with
  | EmptyString => None
  | String x s' => if Ascii.eqb x c then Some 0 else option_map S (find_char c s')
  end.
Fixpoint rfind_char (c : ascii) (s : string) : option nat :=
  match s with
  | EmptyString => None
  | String x s' => match rfind_char c s' with
                   | Some n => Some (S n)
                   | None => if Ascii.eqb x c then Some 0 else None
                   end
  end.

(** [str::contains] of an ASCII character. *)
Definition contains_char (c : ascii) (s : string) : bool :=
  match find_char c s with Some _ => true | None => false end.

(** [str::split_once] at the first occurrence of a character. *)
Fixpoint split_once (c : ascii) (s : string) : option (string * string) :=
  match s with
  | EmptyString => None
  | String x s' =>
      if Ascii.eqb x c then Some ("", s')
      else match split_once c s' with
           | Some (a, b) => Some (String x a, b)
           | None => None
           end
  end.

(** [chars().last()]; restricted to bytes, which is enough to test for ASCII characters. *)
Fixpoint last_char (s : string) : option ascii :=
  match s with
  | EmptyString => None
  | String x EmptyString => Some x
  | String _ s' => last_char s'
  end.

(** [str::strip_prefix]. *)
Fixpoint strip_prefix (p s : string) : option string :=
  match p, s with
  | EmptyString, _ => Some s
  | String a p', String b s' => if Ascii.eqb a b then strip_prefix p' s' else None
  | _, _ => None
  end.

(** [str::starts_with]. *)
Definition starts_with (p s : string) : bool :=
  match strip_prefix p s with Some _ => true | None => false end.

(** ** Lemmas *)
Lemma app_assoc_str a b c : (a +++ b) +++ c = a +++ b +++ c.
Proof. induction a as [|x a IH]; cbn; congruence. Qed.
Lemma app_nil_str a : a +++ "" = a.
Proof. induction a as [|x a IH]; cbn; congruence. Qed.
Lemma app_inj_str a b c : a +++ b = a +++ c -> b = c.
Proof. induction a as [|x a IH]; cbn; [auto|]. intros H. injection H. auto. Qed.
Lemma app_length_str a b : String.length (a +++ b) = String.length a + String.length b.
Proof. induction a as [|x a IH]; cbn; congruence. Qed.

Lemma split_once_sound c s a b : split_once c s = Some (a, b) ->
  s = a +++ String c b /\ contains_char c a = false.
Proof.
  revert a b. induction s as [|x s IH]; cbn; intros a b H; [discriminate|].
  destruct (Ascii.eqb_spec x c) as [->|N].
  - injection H as <- <-. split; reflexivity.
  - destruct (split_once c s) as [[a' b']|] eqn:E; [|discriminate]. injection H as <- <-.
    destruct (IH a' b' eq_refl) as [-> Hc]. split; [reflexivity|].
    unfold contains_char in *. cbn. destruct (Ascii.eqb_spec x c); [contradiction|].
    destruct (find_char c a'); [discriminate|reflexivity].
Qed.

Lemma split_once_complete c a b : contains_char c a = false ->
  split_once c (a +++ String c b) = Some (a, b).
Proof.
  induction a as [|x a IH]; cbn.
  - rewrite Ascii.eqb_refl. reflexivity.
  - unfold contains_char. cbn. destruct (Ascii.eqb_spec x c); [discriminate|].
    intros H. rewrite IH; [reflexivity|]. unfold contains_char.
    destruct (find_char c a); [discriminate|reflexivity].
Qed.

Lemma split_once_none c s : split_once c s = None <-> contains_char c s = false.
Proof.
  unfold contains_char. induction s as [|x s IH]; cbn; [tauto|].
  destruct (Ascii.eqb x c); [split; discriminate|].
  destruct (split_once c s) as [[a b]|]; destruct (find_char c s); cbn in *; intuition congruence.
Qed.

Lemma contains_char_app c a b : contains_char c (a +++ b) = contains_char c a || contains_char c b.
Proof.
  unfold contains_char. induction a as [|x a IH]; cbn; [reflexivity|].
  destruct (Ascii.eqb x c); [reflexivity|].
  destruct (find_char c (a +++ b)); destruct (find_char c a); destruct (find_char c b); cbn in *; congruence.
Qed.

Lemma strip_prefix_spec p s r : strip_prefix p s = Some r <-> s = p +++ r.
Proof.
  revert s r. induction p as [|a p IH]; intros s r; cbn.
  - split; congruence.
  - destruct s as [|b s]; [split; discriminate|].
    destruct (Ascii.eqb_spec a b) as [->|N].
    + rewrite IH. split; congruence.
    + split; [discriminate|]. intros H. injection H as H _. congruence.
Qed.

Lemma starts_with_spec p s : starts_with p s = true <-> exists r, s = p +++ r.
Proof.
  unfold starts_with. split.
  - destruct (strip_prefix p s) as [r|] eqn:E; [|discriminate]. intros _. exists r. apply strip_prefix_spec, E.
  - intros [r H]. apply strip_prefix_spec in H. rewrite H. reflexivity.
Qed.

Lemma contains_char_spec c s : contains_char c s = true <-> exists a b, s = a +++ String c b.
Proof.
  split.
  - intros H. destruct (split_once c s) as [[a b]|] eqn:E.
    + apply split_once_sound in E. exists a, b. apply E.
    + apply split_once_none in E. congruence.
  - intros (a & b & ->). rewrite contains_char_app. unfold contains_char at 2. cbn.
    rewrite Ascii.eqb_refl. apply orb_true_r.
Qed.

Lemma last_char_app a c : last_char (a +++ String c "") = Some c.
Proof. induction a as [|x a IH]; [reflexivity|]. cbn [String.append last_char]. destruct (a +++ String c "") eqn:E; [destruct a; discriminate|exact IH]. Qed.

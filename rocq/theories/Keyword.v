(** Model of crates/syntax/src/keyword.rs. *)
From Verif Require Import Prelude.
Local Open Scope string_scope.

(** crates/syntax/src/keyword.rs 11-143 (enum [Keyword]). *)
Inductive keyword : Type :=
| KBase | KContainer | KContext | KDirection | KGraph | KId | KImport | KIncluded
| KIndex | KJson | KLanguage | KList | KNest | KNone | KPrefix | KPropagate
| KProtected | KReverse | KSet | KType | KValue | KVersion | KVocab.

(** crates/syntax/src/keyword.rs 145-174 ([Keyword::into_str]). *)
Definition kw_str (k : keyword) : string :=
  match k with
  | KBase => "@base" | KContainer => "@container" | KContext => "@context"
  | KDirection => "@direction" | KGraph => "@graph" | KId => "@id"
  | KImport => "@import" | KIncluded => "@included" | KIndex => "@index"
  | KJson => "@json" | KLanguage => "@language" | KList => "@list"
  | KNest => "@nest" | KNone => "@none" | KPrefix => "@prefix"
  | KPropagate => "@propagate" | KProtected => "@protected"
  | KReverse => "@reverse" | KSet => "@set" | KType => "@type"
  | KValue => "@value" | KVersion => "@version" | KVocab => "@vocab"
  end.

(** crates/syntax/src/keyword.rs 176-208 ([TryFrom<&str> for Keyword]).
    The Rust [match] on string literals is a chain of equality tests. *)
Definition kw_of_str (s : string) : option keyword :=
  if streq s "@base" then Some KBase
  else if streq s "@container" then Some KContainer
  else if streq s "@context" then Some KContext
  else if streq s "@direction" then Some KDirection
  else if streq s "@graph" then Some KGraph
  else if streq s "@id" then Some KId
  else if streq s "@import" then Some KImport
  else if streq s "@included" then Some KIncluded
  else if streq s "@index" then Some KIndex
  else if streq s "@json" then Some KJson
  else if streq s "@language" then Some KLanguage
  else if streq s "@list" then Some KList
  else if streq s "@nest" then Some KNest
  else if streq s "@none" then Some KNone
  else if streq s "@prefix" then Some KPrefix
  else if streq s "@propagate" then Some KPropagate
  else if streq s "@protected" then Some KProtected
  else if streq s "@reverse" then Some KReverse
  else if streq s "@set" then Some KSet
  else if streq s "@type" then Some KType
  else if streq s "@value" then Some KValue
  else if streq s "@version" then Some KVersion
  else if streq s "@vocab" then Some KVocab
  else None.

(** crates/syntax/src/keyword.rs 228-230 ([is_keyword]). *)
Definition is_keyword (s : string) : bool :=
  match kw_of_str s with Some _ => true | None => false end.

(** crates/syntax/src/keyword.rs 232-235 ([is_alpha]).  Rust tests [char]s and
    the model tests bytes: the bytes of a non-ASCII [char] are all >= 0x80, so
    both reject it. *)
Definition is_alpha (c : ascii) : bool :=
  let n := N_of_ascii c in
  ((65 <=? n) && (n <=? 90))%N || ((97 <=? n) && (n <=? 122))%N.

Fixpoint all_chars (p : ascii -> bool) (s : string) : bool :=
  match s with
  | EmptyString => true
  | String c r => p c && all_chars p r
  end.

(** crates/syntax/src/keyword.rs 237-249 ([is_keyword_like]): the [len() > 1]
    test, the test of the first character and of the remaining ones. *)
Definition is_keyword_like (s : string) : bool :=
  if (1 <? String.length s)%nat then
    match s with
    | EmptyString => true
    | String c r => Ascii.eqb c "@" && all_chars is_alpha r
    end
  else false.

Definition keyword_eqb (a b : keyword) : bool := streq (kw_str a) (kw_str b).

Lemma kw_of_str_kw_str k : kw_of_str (kw_str k) = Some k.
Proof. destruct k; reflexivity. Qed.

Lemma kw_of_str_sound s k : kw_of_str s = Some k -> s = kw_str k.
Proof.
  unfold kw_of_str. intro H.
  repeat match type of H with
  | (if streq s ?l then _ else _) = _ =>
      destruct (streq_spec s l) as [E|_];
      [ injection H as H; subst; reflexivity |]
  end.
  discriminate H.
Qed.

Lemma kw_str_inj a b : kw_str a = kw_str b -> a = b.
Proof.
  intro H. pose proof (kw_of_str_kw_str a) as Ha. rewrite H, kw_of_str_kw_str in Ha.
  congruence.
Qed.

Lemma keyword_eqb_spec a b : reflect (a = b) (keyword_eqb a b).
Proof.
  unfold keyword_eqb. destruct (streq_spec (kw_str a) (kw_str b)) as [E|E]; constructor.
  - apply kw_str_inj. exact E.
  - intro H. apply E. congruence.
Qed.

Lemma is_keyword_iff s : is_keyword s = true <-> exists k, s = kw_str k.
Proof.
  unfold is_keyword. split.
  - destruct (kw_of_str s) as [k|] eqn:E; [|discriminate].
    intros _. exists k. apply kw_of_str_sound. exact E.
  - intros [k ->]. rewrite kw_of_str_kw_str. reflexivity.
Qed.

(** ** Specification of keyword-like strings: "@" 1*ALPHA, with ALPHA listed as
    the 52 letters. *)
Definition letters : string := "abcdefghijklmnopqrstuvwxyzABCDEFGHIJKLMNOPQRSTUVWXYZ".

Definition is_letter (c : ascii) : Prop :=
  In c (list_ascii_of_string letters).

Lemma is_alpha_letter c : is_alpha c = true <-> is_letter c.
Proof.
  unfold is_letter.
  destruct c as [[] [] [] [] [] [] [] []]; vm_compute; split; intro H;
    try reflexivity; try discriminate;
    repeat (destruct H as [H|H]; [try discriminate H|]); try contradiction;
    repeat (first [left; reflexivity | right]).
Qed.

Lemma all_chars_Forall p s :
  all_chars p s = true <-> Forall (fun c => p c = true) (list_ascii_of_string s).
Proof.
  induction s as [|c s IH]; simpl.
  - split; [constructor | reflexivity].
  - rewrite andb_true_iff, IH. split.
    + intros [A B]. constructor; assumption.
    + intro H. inversion H; subst. split; assumption.
Qed.

Lemma is_keyword_like_iff s :
  is_keyword_like s = true <->
  exists c r, s = String "@" (String c r) /\
              Forall is_letter (c :: list_ascii_of_string r).
Proof.
  unfold is_keyword_like. split.
  - destruct s as [|a [|c r]]; simpl; try discriminate.
    intro H. apply andb_true_iff in H. destruct H as [Ha H].
    apply Ascii.eqb_eq in Ha. subst a. exists c, r. split; [reflexivity|].
    apply andb_true_iff in H. destruct H as [Hc Hr].
    constructor; [apply is_alpha_letter; exact Hc|].
    apply all_chars_Forall in Hr. revert Hr. apply Forall_impl.
    intros x Hx. apply is_alpha_letter. exact Hx.
  - intros (c & r & -> & H). inversion H as [|x l Hc Hr]; subst.
    change (1 <? String.length (String "@" (String c r)))%nat with true.
    cbv iota. rewrite andb_true_iff. split; [reflexivity|].
    simpl. apply andb_true_iff. split; [apply is_alpha_letter; exact Hc|].
    apply all_chars_Forall. revert Hr. apply Forall_impl.
    intros x Hx. apply is_alpha_letter. exact Hx.
Qed.

Lemma keywords_keyword_like k : is_keyword_like (kw_str k) = true.
Proof. destruct k; reflexivity. Qed.

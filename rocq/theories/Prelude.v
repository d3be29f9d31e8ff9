(** Shared definitions: results, strings and association lists. *)
From Coq Require Export String Ascii Bool Arith NArith Lia Permutation.
From Coq Require Export List.
Export ListNotations.
Open Scope string_scope.
Open Scope nat_scope.
Open Scope list_scope.

(** Rust's [Result].  A panic is modelled as a constructor of the error type
    of the function concerned. *)
Inductive result (A E : Type) : Type :=
| Ok (a : A)
| Err (e : E).
Arguments Ok {A E} a.
Arguments Err {A E} e.

Definition is_ok {A E} (r : result A E) : bool :=
  match r with Ok _ => true | Err _ => false end.

Definition bind {A B E} (r : result A E) (f : A -> result B E) : result B E :=
  match r with Ok a => f a | Err e => Err e end.
Notation "'do' x <- e ; f" := (bind e (fun x => f))
  (at level 200, x pattern, e at level 100, f at level 200, right associativity).

(** [Nullable] of crates/syntax/src/nullable.rs 10-18. *)
Inductive nullable (A : Type) : Type :=
| NNull
| NSome (a : A).
Arguments NNull {A}.
Arguments NSome {A} a.

Definition nullable_option {A} (n : nullable A) : option A :=
  match n with NNull => None | NSome a => Some a end.

(** Strings are byte strings ([string] of the Coq library): Rust [str] values
    are UTF-8 byte sequences and [len], [==], [<] on them are bytewise. *)
Definition streq (a b : string) : bool := String.eqb a b.

Lemma streq_spec a b : reflect (a = b) (streq a b).
Proof. apply String.eqb_spec. Qed.

Lemma streq_refl a : streq a a = true.
Proof. apply String.eqb_refl. Qed.

Lemma streq_true a b : streq a b = true <-> a = b.
Proof. apply String.eqb_eq. Qed.

Lemma streq_false a b : streq a b = false <-> a <> b.
Proof. apply String.eqb_neq. Qed.

Definition opt_eqb {A} (eqb : A -> A -> bool) (a b : option A) : bool :=
  match a, b with
  | Some x, Some y => eqb x y
  | None, None => true
  | _, _ => false
  end.

Definition list_eqb {A} (eqb : A -> A -> bool) : list A -> list A -> bool :=
  fix go (a b : list A) : bool :=
    match a, b with
    | [], [] => true
    | x :: a', y :: b' => eqb x y && go a' b'
    | _, _ => false
    end.

Definition mem_str (s : string) (l : list string) : bool := existsb (streq s) l.

Lemma mem_str_In s l : mem_str s l = true <-> In s l.
Proof.
  unfold mem_str. rewrite existsb_exists. split.
  - intros (x & Hx & He). apply streq_true in He. subst. exact Hx.
  - intro H. exists s. split; [exact H | apply streq_refl].
Qed.

Lemma mem_str_not_In s l : mem_str s l = false <-> ~ In s l.
Proof.
  rewrite <- mem_str_In. destruct (mem_str s l); split; congruence.
Qed.

(** Association lists keyed by strings, first match wins. *)
Fixpoint assoc {A} (k : string) (l : list (string * A)) : option A :=
  match l with
  | [] => None
  | (k', v) :: r => if streq k k' then Some v else assoc k r
  end.

Lemma Forall2_length {A B} (R : A -> B -> Prop) x y : Forall2 R x y -> length x = length y.
Proof. induction 1; simpl; congruence. Qed.

(** Model of crates/core/src/lang_string.rs ([LangString]). *)
From Verif Require Import Prelude Enums.

(** lang_string.rs 10-27. *)
Record lang_string : Type := MkLS {
  ls_data : string;
  ls_language : option string;
  ls_direction : option direction
}.

Definition is_some {A} (o : option A) : bool := match o with Some _ => true | None => false end.

(** lang_string.rs 34-48 ([new]); the error carries the string back. *)
Definition ls_new (data : string) (language : option string) (dir : option direction)
  : result lang_string string :=
  if is_some language || is_some dir then Ok (MkLS data language dir) else Err data.

(** lang_string.rs 82-92 ([set_language]): answer and new state. *)
Definition ls_set_language (s : lang_string) (l : option string) : result unit unit * lang_string :=
  if is_some (ls_direction s) || is_some l
  then (Ok tt, MkLS (ls_data s) l (ls_direction s)) else (Err tt, s).

(** lang_string.rs 104-111 ([set_direction]). *)
Definition ls_set_direction (s : lang_string) (d : option direction) : result unit unit * lang_string :=
  if is_some d || is_some (ls_language s)
  then (Ok tt, MkLS (ls_data s) (ls_language s) d) else (Err tt, s).

(** lang_string.rs 117-129 ([set]). *)
Definition ls_set (s : lang_string) (l : option string) (d : option direction)
  : result unit unit * lang_string :=
  if is_some d || is_some l then (Ok tt, MkLS (ls_data s) l d) else (Err tt, s).

Inductive ls_op : Type :=
| LsSetLanguage (l : option string)
| LsSetDirection (d : option direction)
| LsSet (l : option string) (d : option direction).

Definition ls_step (s : lang_string) (o : ls_op) : result unit unit * lang_string :=
  match o with
  | LsSetLanguage l => ls_set_language s l
  | LsSetDirection d => ls_set_direction s d
  | LsSet l d => ls_set s l d
  end.

Definition ls_run (s : lang_string) (ops : list ls_op) : lang_string :=
  fold_left (fun s o => snd (ls_step s o)) ops s.

(** ** Specification *)
Definition tagged (s : lang_string) : Prop := ls_language s <> None \/ ls_direction s <> None.

(** What the caller asked for. *)
Definition requested (s : lang_string) (o : ls_op) : lang_string :=
  match o with
  | LsSetLanguage l => MkLS (ls_data s) l (ls_direction s)
  | LsSetDirection d => MkLS (ls_data s) (ls_language s) d
  | LsSet l d => MkLS (ls_data s) l d
  end.

Lemma ls_new_spec data l d :
  (tagged (MkLS data l d) -> ls_new data l d = Ok (MkLS data l d)) /\
  (~ tagged (MkLS data l d) -> ls_new data l d = Err data).
Proof.
  unfold tagged, ls_new. simpl. destruct l, d; simpl; split; intro H; try reflexivity;
    exfalso; try (apply H; (left; discriminate) || (right; discriminate)); destruct H; congruence.
Qed.

Lemma ls_step_spec s o :
  (tagged (requested s o) -> ls_step s o = (Ok tt, requested s o)) /\
  (~ tagged (requested s o) -> ls_step s o = (Err tt, s)).
Proof.
  destruct s as [data l d], o as [l'|d'|l' d']; unfold tagged; simpl;
    unfold ls_set_language, ls_set_direction, ls_set; simpl;
    repeat match goal with o : option _ |- _ => destruct o end; simpl;
    split; intro H; try reflexivity; exfalso;
    try (apply H; (left; discriminate) || (right; discriminate)); destruct H; congruence.
Qed.

Lemma ls_step_tagged s o : tagged s -> tagged (snd (ls_step s o)).
Proof.
  intro T. destruct (ls_step_spec s o) as [S1 S2].
  assert (D : tagged (requested s o) \/ ~ tagged (requested s o)).
  { unfold tagged. destruct (ls_language (requested s o)), (ls_direction (requested s o));
      try (left; left; discriminate); try (left; right; discriminate). right. intros [H|H]; congruence. }
  destruct D as [D|D]; [rewrite (S1 D)|rewrite (S2 D)]; assumption.
Qed.

Lemma ls_run_tagged data l d s ops :
  ls_new data l d = Ok s -> tagged (ls_run s ops) /\ ls_data (ls_run s ops) = data.
Proof.
  intro E.
  assert (T : tagged s /\ ls_data s = data).
  { destruct l, d; simpl in E; inversion E; subst; (split; [|reflexivity]);
      unfold tagged; simpl; (left; discriminate) || (right; discriminate). }
  clear E. unfold ls_run. revert s T. induction ops as [|o ops IH]; simpl; intros s [T D]; [auto|].
  apply IH. split; [apply ls_step_tagged, T|].
  destruct o; simpl; unfold ls_set_language, ls_set_direction, ls_set;
    match goal with |- context [if ?b then _ else _] => destruct b end; exact D.
Qed.

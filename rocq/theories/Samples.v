(** Concrete external functions, used only by examples and counterexamples. *)
From Verif Require Import Prelude Str Keyword Enums Container Stack ContextSyntax Ctx Process.

Fixpoint all_chars (f : ascii -> bool) (s : string) : bool :=
  match s with EmptyString => true | String c s' => f c && all_chars f s' end.
Definition is_lower (c : ascii) : bool := let n := nat_of_ascii c in (97 <=? n) && (n <=? 122).

(** A simplified IRI syntax: a non-empty lower case scheme, a colon, then anything without
    spaces. *)
Definition sample_iri (s : string) : bool :=
  match split_once ":" s with
  | Some (p, x) => negb (streq p "") && all_chars is_lower p && negb (contains_char " " x)
  | None => false
  end.
Definition sample_iops : iops := MkIops
  sample_iri
  (fun s => negb (contains_char " " s))
  (fun s => match strip_prefix "_:" s with Some x => negb (streq x "") | None => false end)
  (fun b r => let u := if contains_char ":" r then r else b +++ r in if sample_iri u then u else "x:").

Definition no_loader : loader := fun _ => LdFail.

(** Definitions with only some entries. *)
Definition def_of (l : list (string * nullable tdef)) : cdef tdef :=
  MkDef None None None None None None None None None l.
Definition lc_of (l : list (string * nullable tdef)) : lcontext := LOne (CEDef (def_of l)).
Definition ctx_of (l : defs) : actx := MkCtx None None None None None None l None.
Definition iri_term (s : string) : option term := Some (TmId (IIri s)).
Definition ndef_of (s : string) (prefix protected : bool) : ndef :=
  nd_set_protected (nd_set_prefix (nd_set_value ndef_default (iri_term s)) prefix) protected.
Definition te_id_only (i : nullable tid) : texp lcontext :=
  MkTExp (Some i) None None None None None None None None None None None.

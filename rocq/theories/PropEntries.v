(** The entries of expanded objects: C103. *)
From Coq Require Import Permutation.
From Verif Require Import Prelude Json Enums LangTag LangString Str Keyword Container ContextSyntax Ctx Process Object ObjectEq ObjectJson Print PrintProofs
  CtxTraverse PropCtxTraverse Traverse Entries.

(** ** C103 *)

(** The iterator over the entries of an object gives each entry once, in order, and announces at each step how many are left. *)
Theorem C103_entries : forall x, drains i_next i_hint (i_start x) (entries_of_object x).
Proof.
  intros x. rewrite <- i_start_left. generalize (i_start x). intros s. remember (i_left s) as l eqn:E. revert s E.
  induction l as [|e l IH]; intros s E; pose proof (i_next_left s) as H; pose proof (i_hint_left s) as L; rewrite <- E in L.
  - constructor; [|exact L]. destruct (i_next s) as [[e s']|]; [congruence|reflexivity].
  - destruct (i_next s) as [[e' s']|] eqn:N; [|congruence]. rewrite H in E. injection E as -> ->. econstructor; [exact N|exact L|]. apply IH. reflexivity.
Qed.
Print Assumptions C103_entries.

(** The entries of a value may be taken from both ends, in any order of calls: they are those of a list. *)
Theorem C103_ends : forall v calls,
  history v_next v_back v_hint calls (v_start v) = history take_front take_back (@List.length ventry) calls (entries_of_value v).
Proof. intros v calls. rewrite <- v_start_left. apply v_history. Qed.
Print Assumptions C103_ends.

(** The JSON form of an object has these entries, with the keys of [into_str]. *)
Theorem C103_json : forall x, writable x -> exists m, iobj_json x = JObj m /\
  Permutation m (map (fun e => (ientry_key e, ientry_json e)) (entries_of_object x)).
Proof. exact object_entries_json. Qed.
Print Assumptions C103_json.

(** The key as a keyword, if it is one, and as a string agree. *)
Theorem C103_keyword : forall e k, ientry_kw e = Some k -> ientry_key e = kw_str k.
Proof. exact key_kw. Qed.
Print Assumptions C103_keyword.

(** [has_key] tells whether there is such an entry. *)
Theorem C103_has_key : forall n t, node_has_key n t = true <-> exists e, In e (entries_of_node n) /\
  match t with TmKw k => nentry_kw e = Some k | TmId p => exists l, e = NEProp p l | TmNull => False end.
Proof. exact has_key_iff. Qed.
Print Assumptions C103_has_key.

(** With included nodes the JSON form has another key than the entries. *)
Theorem C103_included_refuted : exists x m, NoDup (map ientry_key (entries_of_object x)) /\ iobj_json x = JObj m /\
  ~ Permutation (map fst m) (map ientry_key (entries_of_object x)).
Proof.
  exists (None, ONode (MkNode None None None (Some []) [] None)). eexists. split; [repeat constructor; intros []|]. split; [reflexivity|].
  intros P. assert (I : In "@included" ["@include"]) by (apply (Permutation_in _ (Permutation_sym P)); left; reflexivity).
  destruct I as [E|[]]. discriminate E.
Qed.
Print Assumptions C103_included_refuted.

(** Through a vocabulary ([into_ref_with]) the index has the key of the value, so that two entries have the same key. *)
Theorem C103_index_refuted : exists x, writable x /\ ~ NoDup (map ientry_key_with (entries_of_object x)).
Proof.
  exists (Some "i", OVal (VLit (LBool true) None)). split.
  - split; [|discriminate]. constructor; [intros [E|[]]; discriminate E|]. constructor; [intros []|constructor].
  - intros N. inversion N as [|? ? NI _]; subst. apply NI. left. reflexivity.
Qed.
Print Assumptions C103_index_refuted.

Definition c103_value : iobj := (Some "i", OVal (VLang (MkLS "s" (Some "en") (Some Rtl)))).
Definition c103_node : iobj :=
  (Some "i", ONode (MkNode (Some (IIri "http://x/")) (Some [IIri "http://t/"]) None None [(IIri "http://p/", [c103_value]); (IBlank "_:b", [])] (Some []))).
Example C103_example :
  writable c103_node /\ map ientry_key (entries_of_object c103_node) = ["@index"; "@id"; "@type"; "@reverse"; "http://p/"; "_:b"] /\
  iobj_json c103_value = JObj [("@language", JStr "en"); ("@direction", JStr "rtl"); ("@value", JStr "s"); ("@index", JStr "i")] /\
  map (fun e => (ientry_key e, ientry_json e)) (entries_of_object c103_value) = [("@index", JStr "i"); ("@value", JStr "s"); ("@language", JStr "en"); ("@direction", JStr "rtl")] /\
  (let v := VLang (MkLS "s" (Some "en") (Some Rtl)) in
   history v_next v_back v_hint [Back; Front; Back; Front; Back] (v_start v) = [(3, Some (VEDir Rtl)); (2, Some (VEVal v)); (1, Some (VELang "en")); (0, None); (0, None)]) /\
  node_has_key (MkNode None (Some []) None None [(IIri "http://p/", [])] None) (TmId (IIri "http://p/")) = true /\
  node_has_key (MkNode None (Some []) None None [(IIri "http://p/", [])] None) (TmKw KId) = false.
Proof.
  split; [|vm_compute; repeat split; reflexivity]. split.
  - change (NoDup ["@index"; "@id"; "@type"; "@reverse"; "http://p/"; "_:b"]). repeat (constructor; [cbn; intuition discriminate|]). constructor.
  - intros n E. injection E as <-. split; [reflexivity|]. split; [discriminate|]. intros rs E. injection E as <-. constructor.
Qed.

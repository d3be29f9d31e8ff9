(** Properties of the expansion of expanded documents: C85. *)
From Verif Require Import Prelude Json Str Keyword Enums LangTag LangString Container Stack ContextSyntax Ctx Process
  Object ObjectEq ObjectJson ObjectJsonProofs CompactIri CompactIriRead Sound Expand ExpandOk RoundTrip Samples PropObject PropCompactIri PropExpand Reexpand.

(** ** C85 *)

(** A document already expanded is left as it is, whatever the base IRI, the URL and the options
    other than the ordering of entries. *)
Theorem C85_fixed : forall io ld fin rnd pf o base b e, id_laws io -> xo_ordered o = false ->
  Forall (fun x => settled io o b (snd x) /\ wf (snd x) /\ floats x) e -> distinct same_i e ->
  (forall x, e = [x] -> unnamed_graph x = None) ->
  exists N, forall n, N <= n -> expand io ld fin rnd pf o base n (ctx_new b) (JArr (map iobj_json e)) = Ok e.
Proof. intros io ld fin rnd pf o base b e L O F D U. exact (reexpand io ld fin rnd pf o base b L O e F D U). Qed.
Print Assumptions C85_fixed.

(** Expanding twice is expanding once: the result of an expansion in any context, written and
    expanded again in the empty context. *)
Theorem C85_twice : forall io ld fin rnd pf o base m c doc e b o' base', id_laws io -> sound io c -> xo_ordered o' = false ->
  expand io ld fin rnd pf o base m c doc = Ok e ->
  Forall (fun x => plain o' b (snd x) /\ floats x) e -> (forall x, e = [x] -> unnamed_graph x = None) ->
  exists N, forall n, N <= n -> expand io ld fin rnd pf o' base' n (ctx_new b) (JArr (map iobj_json e)) = Ok e.
Proof.
  intros io ld fin rnd pf o base m c doc e b o' base' L S O H P U. destruct (C39_partial _ _ _ _ _ _ _ _ _ _ _ L S H) as [F D].
  apply C85_fixed; [exact L|exact O| |exact D|exact U]. apply Forall_forall. intros x J. destruct (Forall_in _ _ _ F J) as (G & W & _), (Forall_in _ _ _ P J) as [Q T].
  split; [exact (proj1 (good_settled io _ o' b) _ G Q)|]. split; [exact W|exact T].
Qed.
Print Assumptions C85_twice.

(** The conditions matter. *)
Definition again (b : option string) (e : list iobj) : result (list iobj) xerr :=
  expand sample_iops no_loader sample_hash sample_hash 20 xopts_default None 20 (ctx_new b) (JArr (map iobj_json e)).
Definition twice (b : option string) (doc : json) : result (list iobj * list iobj) xerr :=
  do e <- sample_expand (ctx_new b) doc ; do e' <- again b e ; Ok (e, e').
Definition prop_node (i : option id) (v : obj) : iobj := (None, ONode (MkNode i None None None [(IIri "http://a/p", [(None, v)])] None)).
(** A graph in a graph is unwrapped once each time. *)
Theorem C85_graph_refuted :
  let doc := JObj [("@graph", JArr [JObj [("@graph", JArr [JObj [("http://a/p", JNum "1")]])]])] in
  twice None doc = Ok ([(None, ONode (MkNode None None (Some [prop_node None (OVal (VLit (LNum "1") None))]) None [] None))],
                       [prop_node None (OVal (VLit (LNum "1") None))]).
Proof. vm_compute. reflexivity. Qed.
Print Assumptions C85_graph_refuted.
(** Included nodes are lost: they are not written under the keyword. *)
Theorem C85_included_refuted :
  let doc := JObj [("http://a/p", JNum "1"); ("@included", JObj [("http://a/q", JNum "2")])] in
  exists e, sample_expand (ctx_new None) doc = Ok [(None, ONode e)] /\ n_included e <> None /\
    again None [(None, ONode e)] = Ok [prop_node None (OVal (VLit (LNum "1") None))].
Proof.
  exists (MkNode None None None (Some [(None, MkNode None None None None [(IIri "http://a/q", [(None, OVal (VLit (LNum "2") None))])] None)])
    [(IIri "http://a/p", [(None, OVal (VLit (LNum "1") None))])] None).
  split; [vm_compute; reflexivity|]. split; [discriminate|]. vm_compute. reflexivity.
Qed.
Print Assumptions C85_included_refuted.
(** Values in a graph container are lost. *)
Theorem C85_values_refuted :
  let doc := JObj [("@context", JObj [("p", JObj [("@id", JStr "http://a/p"); ("@container", JStr "@graph")])]); ("p", JStr "x")] in
  twice None doc = Ok ([prop_node None (ONode (MkNode None None (Some [(None, OVal (VLit (LStr "x") None))]) None [] None))],
                       [prop_node None (ONode (MkNode None None (Some []) None [] None))]).
Proof. vm_compute. reflexivity. Qed.
Print Assumptions C85_values_refuted.
(** The language "@none" is lost. *)
Theorem C85_none_refuted :
  let doc := JObj [("@context", JObj [("@language", JStr "@none")]); ("http://a/p", JStr "x")] in
  exists e e', twice None doc = Ok (e, e') /\ e <> e'.
Proof.
  exists [prop_node None (OVal (VLang (MkLS "x" (Some "@none") None)))], [prop_node None (OVal (VLit (LStr "x") None))].
  split; [vm_compute; reflexivity|discriminate].
Qed.
Print Assumptions C85_none_refuted.
(** A reference that could not be resolved is resolved later. *)
Theorem C85_base_refuted :
  let doc := JObj [("@context", JObj [("@base", JNull)]); ("@id", JStr "x"); ("http://a/p", JStr "y")] in
  twice (Some "http://b/") doc = Ok ([prop_node (Some (IInvalid "x")) (OVal (VLit (LStr "y") None))],
                                    [prop_node (Some (IIri "http://b/x")) (OVal (VLit (LStr "y") None))]).
Proof. vm_compute. reflexivity. Qed.
Print Assumptions C85_base_refuted.

(** The large document of C39: an unresolved identifier, types, a graph, lists, a tagged string,
    a reversed property. *)
Example C85_example : exists N, forall n, N <= n ->
  expand sample_iops no_loader sample_hash sample_hash 20 xopts_default None n (ctx_new None) (JArr (map iobj_json c39_expanded)) = Ok c39_expanded.
Proof.
  assert (E : sample_expand (ctx_new None) c39_large = Ok c39_expanded) by (vm_compute; reflexivity).
  refine (C85_twice _ _ _ _ _ _ _ _ _ _ _ None xopts_default None sample_id_laws (sound_new _ None) eq_refl E _ _).
  - assert (A : forall i, accepted xopts_default i) by (intros i; right; reflexivity).
    assert (N : forall x, n_empty x = false -> floats (None, ONode x)) by (intros x X; exists x; auto).
    unfold c39_expanded, node_new.
    repeat match goal with
    | |- Forall _ (opt_list _) => cbn [opt_list]
    | |- Forall _ _ => constructor; cbn [fst snd]
    | |- _ /\ _ => split
    | |- floats _ => apply N; reflexivity
    | |- accepted _ _ => apply A
    | |- plain_key _ _ => split; [apply A|reflexivity]
    | |- fixed _ _ => left; reflexivity
    | |- plain _ _ _ => constructor
    | |- plain_node _ _ _ => constructor
    | |- _ <> _ => discriminate
    | |- forall x, _ = Some x -> _ => intros x X; first [discriminate X|injection X as <-; first [left; reflexivity|right; split; reflexivity]]
    end.
  - intros x X. injection X as <-. reflexivity.
Qed.
Example C85_example_run : again None c39_expanded = Ok c39_expanded.
Proof. vm_compute. reflexivity. Qed.

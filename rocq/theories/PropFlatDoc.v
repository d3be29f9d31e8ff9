(** Properties of expansion: C109. *)
From Verif Require Import Prelude Json Str Keyword Enums LangTag LangString Container Stack ContextSyntax Ctx Process
  Object ObjectJson CompactIri Expand Samples Flat PropFlat FlatDoc FlatSame.

(** A document whose context is a definition of absolute and compact IRIs as in C108, and whose other entries are an identifier,
    types and terms of the context with scalars, objects of the same kind nested up to a depth, or arrays of these, expands in the initial
    context, with every option, to a single node object without graph, included nodes and reverse properties, which has
    exactly the identifier, the types and the objects that the entries stand for, wherever the context stands among the entries; at least
    one entry has to stand for objects. *)
Theorem C109_expands : forall io ld fin rnd o url b l j d pf n m1 m2 es, flat io l -> context_of_json (iri_ref_ok io) j = Ok (LOne (CEDef (def_of l))) ->
  Forall2 (says_entry io l (says_value io l d)) (m1 ++ m2) es -> single es -> (exists p xs, In (Has p xs) es) ->
  exists r es', expand io ld fin rnd (4 + pf) o url (3 + 2 * d + n) (ctx_new b) (JObj (m1 ++ ("@context", j) :: m2)) = Ok [(None, ONode r)] /\
    Forall2 (says_entry io l (says_value io l d)) (m1 ++ m2) es' /\ made es' r.
Proof. intros io ld fin rnd o url b l j d pf n m1 m2 es F J. exact (expand_flat io ld fin rnd o url b l j F J d pf n m1 m2 es). Qed.
Print Assumptions C109_expands.

(** What the entries stand for is determined up to the order in which nested nodes store their properties. *)
Theorem C109_determined : forall io ld fin rnd o url b l j d pf n m1 m2 es, flat io l -> context_of_json (iri_ref_ok io) j = Ok (LOne (CEDef (def_of l))) ->
  Forall2 (says_entry io l (says_value io l d)) (m1 ++ m2) es -> single es -> (exists p xs, In (Has p xs) es) ->
  exists r, expand io ld fin rnd (4 + pf) o url (3 + 2 * d + n) (ctx_new b) (JObj (m1 ++ ("@context", j) :: m2)) = Ok [(None, ONode r)] /\
    n_id r = hd_error (names es) /\ n_types r = match concat (typings es) with [] => None | ts => Some ts end /\ n_graph r = None /\ n_included r = None /\ n_reverse r = None /\
    (forall p, is_some (get_id p (n_props r)) = mentioned p es) /\ forall p, Forall2 (item (alike d)) (objects p es) (opt_list (get_id p (n_props r))).
Proof.
  intros io ld fin rnd o url b l j d pf n m1 m2 es F J H L N. destruct (C109_expands io ld fin rnd o url b l j d pf n m1 m2 es F J H L N) as (r & es' & E & H' & (_ & I & T & G & C & R & Q & P)).
  destruct (like_effects _ _ _ (entries_like io l F _ (alike d) (value_alike io l F d) (value_not_array io l d) (value_not_null io l d) _ es es' H H')) as (NM & TY & ME & OB).
  exists r. rewrite NM, TY. split; [exact E|]. split; [exact I|]. split; [exact T|]. split; [exact G|]. split; [exact C|]. split; [exact R|]. split; [intros p; rewrite Q; symmetry; apply ME|]. intros p. rewrite P. apply OB.
Qed.
Print Assumptions C109_determined.

(** Without nested objects there is only one thing that entries can stand for. *)
Theorem C109_scalars : forall io ld fin rnd o url b l j pf n m1 m2 es, flat io l -> context_of_json (iri_ref_ok io) j = Ok (LOne (CEDef (def_of l))) ->
  Forall2 (says_entry io l (says_scalar io l)) (m1 ++ m2) es -> single es -> (exists p xs, In (Has p xs) es) ->
  exists r, expand io ld fin rnd (4 + pf) o url (3 + n) (ctx_new b) (JObj (m1 ++ ("@context", j) :: m2)) = Ok [(None, ONode r)] /\ made es r.
Proof.
  intros io ld fin rnd o url b l j pf n m1 m2 es F J H L N.
  assert (UP : forall m es, Forall2 (says_entry io l (says_scalar io l)) m es -> Forall2 (says_entry io l (says_value io l 0)) m es).
  { clear. intros m es H. induction H as [|e ef m es E _ IH]; constructor; [|exact IH]. destruct E as [k v s i y xs K A TX M W|k v K A LS|s i M|y ts S]; [eapply says_i; eauto|eapply says_null; eauto|apply says_id, M|apply says_typed, S].
    destruct W as [y x W|ys xs W]; constructor; [left; exact W|]. induction W; constructor; try assumption; left; assumption. }
  destruct (C109_determined io ld fin rnd o url b l j 0 pf n m1 m2 es F J (UP _ _ H) L N) as (r & E & I & T & G & C & R & Q & P). exists r. split; [exact E|].
  split; [exact L|]. split; [exact I|]. split; [exact T|]. split; [exact G|]. split; [exact C|]. split; [exact R|]. split; [exact Q|]. intros p. symmetry. apply alike_0, P.
Qed.
Print Assumptions C109_scalars.

(** So two documents that stand for the same over different contexts have the same expansion, whatever prefixes and terms they are
    written with and in whatever order their entries stand, except for the order in which properties are stored. *)
Theorem C109_same : forall io ld fin rnd o url b l l' j j' d pf n m1 m2 m1' m2' es es', flat io l -> flat io l' ->
  context_of_json (iri_ref_ok io) j = Ok (LOne (CEDef (def_of l))) -> context_of_json (iri_ref_ok io) j' = Ok (LOne (CEDef (def_of l'))) ->
  Forall2 (says_entry io l (says_value io l d)) (m1 ++ m2) es -> Forall2 (says_entry io l' (says_value io l' d)) (m1' ++ m2') es' ->
  single es -> single es' -> (exists p xs, In (Has p xs) es) -> (exists p xs, In (Has p xs) es') ->
  names es = names es' -> typings es = typings es' -> (forall p, mentioned p es = mentioned p es') -> (forall p, Forall2 (item (alike d)) (objects p es) (objects p es')) ->
  exists r r', expand io ld fin rnd (4 + pf) o url (3 + 2 * d + n) (ctx_new b) (JObj (m1 ++ ("@context", j) :: m2)) = Ok [(None, ONode r)] /\
    expand io ld fin rnd (4 + pf) o url (3 + 2 * d + n) (ctx_new b) (JObj (m1' ++ ("@context", j') :: m2')) = Ok [(None, ONode r')] /\
    alike (S d) (None, ONode r) (None, ONode r').
Proof.
  intros io ld fin rnd o url b l l' j j' d pf n m1 m2 m1' m2' es es' F F' J J' H H' L L' N N' NM TY ME OB.
  destruct (C109_determined io ld fin rnd o url b l j d pf n m1 m2 es F J H L N) as (r & E & I & T & G & C & R & Q & P).
  destruct (C109_determined io ld fin rnd o url b l' j' d pf n m1' m2' es' F' J' H' L' N') as (r' & E' & I' & T' & G' & C' & R' & Q' & P').
  exists r, r'. split; [exact E|]. split; [exact E'|]. right. exists r, r'. split; [reflexivity|]. split; [reflexivity|]. split; [congruence|]. split; [rewrite T, T', TY; reflexivity|].
  split; [congruence|]. split; [congruence|]. split; [congruence|]. split; [intros p; rewrite Q, Q'; apply ME|]. intros p.
  assert (TR : forall x y z, item (alike d) x y -> item (alike d) y z -> item (alike d) x z) by (intros x y z; apply item_trans, alike_trans).
  eapply forall2_trans; [exact TR| |apply P']. eapply forall2_trans; [exact TR| |apply OB]. apply forall2_sym; [|apply P]. intros x y. apply item_sym, alike_sym.
Qed.
Print Assumptions C109_same.

(** An identifier, two types, a name, a list of a link and a nested object, a text in a language and a null; the context stands in the middle. *)
Definition c109_context : json :=
  JObj [("name", JStr "ex:name"); ("knows", JObj [("@id", JStr "ex:knows"); ("@type", JStr "@id"); ("@container", JStr "@list")]);
        ("label", JObj [("@id", JStr "http://ex/label"); ("@language", JStr "en")]); ("ex", JStr "http://ex/")].
Definition c109_texp ty lang co s : nullable tdef := NSome (TExpanded (MkTExp (Some (NSome (TIdTerm s))) ty None None None lang None co None None None None)).
Definition c109_terms : list (string * nullable tdef) :=
  [("name", NSome (TSimple "ex:name")); ("knows", c109_texp (Some (NSome (TTyKeyword TKId))) None (Some (NSome (SOne CKList))) "ex:knows");
   ("label", c109_texp None (Some (NSome "en")) None "http://ex/label"); ("ex", NSome (TSimple "http://ex/"))].
Definition c109_hash (w : list word) : N := N.of_nat (length w).
Definition c109_link (s : string) : iobj := (None, ONode (MkNode (Some (IIri s)) None None None [] None)).
Definition c109_bob : json := JObj [("name", JStr "Bob"); ("@id", JStr "ex:bob")].
Definition c109_node : iobj := (None, ONode (MkNode (Some (IIri "http://ex/bob")) None None None [(IIri "http://ex/name", [(None, OVal (VLit (LStr "Bob") None))])] None)).
Definition c109_before : jobject := [("@id", JStr "http://b/"); ("@type", JArr [JStr "name"; JStr "ex:bob"]); ("name", JStr "Ann"); ("knows", JArr [c109_bob; JNull; JStr "http://b/"])].
Definition c109_after : jobject := [("label", JStr "hi"); ("label", JNull); ("name", JArr [JBool true; JStr "x"])].
Definition c109_effects : list effect :=
  [Named (IIri "http://b/"); Typed [IIri "http://ex/name"; IIri "http://ex/bob"]; Has (IIri "http://ex/name") [(None, OVal (VLit (LStr "Ann") None))];
   Has (IIri "http://ex/knows") [(None, OList [c109_node; c109_link "http://b/"])];
   Has (IIri "http://ex/label") [(None, OVal (VLang (MkLS "hi" (Some "en") None)))]; Nothing;
   Has (IIri "http://ex/name") [(None, OVal (VLit (LBool true) None)); (None, OVal (VLit (LStr "x") None))]].
Example C109_example :
  flat sample_iops c109_terms /\ context_of_json (iri_ref_ok sample_iops) c109_context = Ok (LOne (CEDef (def_of c109_terms))) /\
  Forall2 (says_entry sample_iops c109_terms (says_value sample_iops c109_terms 1)) (c109_before ++ c109_after) c109_effects /\ single c109_effects /\
  expand sample_iops no_loader c109_hash c109_hash 4 xopts_default None 5 (ctx_new None) (JObj (c109_before ++ ("@context", c109_context) :: c109_after))
  = Ok [(None, ONode (MkNode (Some (IIri "http://b/")) (Some [IIri "http://ex/name"; IIri "http://ex/bob"]) None None
      [(IIri "http://ex/name", [(None, OVal (VLit (LStr "Ann") None)); (None, OVal (VLit (LBool true) None)); (None, OVal (VLit (LStr "x") None))]);
       (IIri "http://ex/knows", [(None, OList [c109_node; c109_link "http://b/"])]);
       (IIri "http://ex/label", [(None, OVal (VLang (MkLS "hi" (Some "en") None)))])] None))].
Proof.
  assert (A : absolute sample_iops "http://ex/") by (apply (absolute_i sample_iops "http" "//ex/"); [discriminate|reflexivity..]).
  assert (AL : means sample_iops c109_terms "http://ex/label" "http://ex/label") by (apply means_iri, (absolute_i sample_iops "http" "//ex/label"); [discriminate|reflexivity..]).
  assert (AB : means sample_iops c109_terms "http://b/" "http://b/") by (apply means_iri, (absolute_i sample_iops "http" "//b/"); [discriminate|reflexivity..]).
  assert (MP : forall x, x = "name" \/ x = "knows" \/ x = "bob" -> means sample_iops c109_terms ("ex" +++ ":" +++ x) ("http://ex/" +++ x)).
  { intros x X. apply (means_prefixed sample_iops c109_terms "ex" x "http://ex/"); try reflexivity; try discriminate; try exact A; destruct X as [-> |[-> | ->]]; reflexivity. }
  assert (MN := MP "name" (or_introl eq_refl)). assert (MK := MP "knows" (or_intror (or_introl eq_refl))). assert (MB := MP "bob" (or_intror (or_intror eq_refl))).
  split; [|split; [reflexivity|split; [|split; [split; cbn; lia|vm_compute; reflexivity]]]].
  - intros k v H. cbn in H. destruct (streq_spec k "name") as [->|_]; [injection H as <-|destruct (streq_spec k "knows") as [->|_]; [injection H as <-|destruct (streq_spec k "label") as [->|_]; [injection H as <-|
      destruct (streq_spec k "ex") as [->|_]; [injection H as <-|discriminate H]]]]; (split; [discriminate|]); (split; [reflexivity|]); (split; [reflexivity|]); eexists; eexists; eexists; (split; [reflexivity|]).
    + split; [exact MN|constructor].
    + split; [exact MK|]. constructor; [right; left; auto|right; left; auto].
    + split; [exact AL|]. constructor; [left; auto|left; auto].
    + split; [apply means_iri, A|constructor].
  - constructor; [|constructor; [|constructor; [|constructor; [|constructor; [|constructor; [|constructor; [|constructor]]]]]]].
    + apply says_id, AB.
    + apply says_typed. constructor; [exact (type_term sample_iops c109_terms "name" _ _ _ eq_refl eq_refl eq_refl MN)|]. constructor; [exact (type_iri _ _ _ _ MB)|constructor].
    + refine (says_i sample_iops c109_terms _ "name" _ _ _ _ _ eq_refl eq_refl eq_refl MN (says_one _ _ _ _)). left. apply says_plain; reflexivity.
    + refine (says_i sample_iops c109_terms _ "knows" _ _ _ _ [_; _] eq_refl eq_refl eq_refl MK (says_many _ _ _ _)).
      apply items_cons; [|apply items_null, items_cons; [left; apply says_link; [reflexivity|exact AB]|constructor]]. right. eexists. exists [Has (IIri "http://ex/name") [(None, OVal (VLit (LStr "Bob") None))]; Named (IIri "http://ex/bob")]. eexists.
      split; [reflexivity|]. split; [reflexivity|]. split; [reflexivity|]. split.
      * constructor; [|constructor; [exact (says_id _ _ _ _ _ MB)|constructor]].
        refine (says_i sample_iops c109_terms _ "name" _ _ _ _ _ eq_refl eq_refl eq_refl MN (says_one _ _ _ _)). left. apply says_plain; reflexivity.
      * split; [split; cbn; lia|]. repeat (split; [reflexivity|]). split; intros p; [cbn [mentioned existsb n_props get_id orb]|cbn [objects flat_map n_props get_id app]]; (destruct (id_eqb_spec p (IIri "http://ex/name")) as [->|NP]; [reflexivity|]);
        (destruct (id_eqb_spec (IIri "http://ex/name") p) as [Z|_]; [congruence|reflexivity]).
    + refine (says_i sample_iops c109_terms _ "label" _ _ _ _ _ eq_refl eq_refl eq_refl AL (says_one _ _ _ _)). left. apply says_tagged; [reflexivity|left; discriminate].
    + eapply says_null; reflexivity.
    + refine (says_i sample_iops c109_terms _ "name" _ _ _ _ _ eq_refl eq_refl eq_refl MN (says_many _ _ _ _)). apply items_cons; [left; constructor|]. apply items_cons; [left; constructor; reflexivity|constructor].
Qed.

(** The same node written over two contexts, with its entries in another order. *)
Example C109_example_same :
  expand sample_iops no_loader c109_hash c109_hash 4 xopts_default None 5 (ctx_new None)
    (JObj [("@context", c109_context); ("name", JStr "Ann"); ("knows", c109_bob)])
  = Ok [(None, ONode (MkNode None None None None
      [(IIri "http://ex/name", [(None, OVal (VLit (LStr "Ann") None))]); (IIri "http://ex/knows", [(None, OList [c109_node])])] None))] /\
  expand sample_iops no_loader c109_hash c109_hash 4 xopts_default None 5 (ctx_new None)
    (JObj [("k", JArr [JObj [("@id", JStr "http://ex/bob"); ("n", JStr "Bob")]]); ("n", JStr "Ann");
           ("@context", JObj [("n", JStr "http://ex/name"); ("k", JObj [("@id", JStr "http://ex/knows"); ("@container", JStr "@list")])])])
  = Ok [(None, ONode (MkNode None None None None
      [(IIri "http://ex/knows", [(None, OList [c109_node])]); (IIri "http://ex/name", [(None, OVal (VLit (LStr "Ann") None))])] None))].
Proof. split; vm_compute; reflexivity. Qed.

(** The documents that expansion and compaction depend on: used for C100. *)
From Verif Require Import Prelude Json Enums LangTag LangString Str Keyword Container Stack ContextSyntax Ctx Process Object ObjectEq Expand CompactIri Compact Store.

Section Expansion.
Variables (io : iops) (ld : loader) (fin rnd : list word -> N) (pf : nat) (o : xopts) (base_url : option string).
Notation ow := (owes is_context ld).
Ltac bnd := refine (owes_bind _ _ _ _ _ _ _ _).

Lemma se_process c lc u po : ow (xprocess io ld pf c lc u po) (fun s => xprocess io s pf c lc u po).
Proof. apply owes_map_err, process_owes. Qed.

Section Entries.
Variable rec : actx -> option string -> json -> bool -> result expanded xerr.
Variable rec' : loader -> actx -> option string -> json -> bool -> result expanded xerr.
Hypothesis Rec : forall c ap j m, ow (rec c ap j m) (fun s => rec' s c ap j m).

Ltac same := first [apply owes_refl | apply owes_err | apply se_process | apply Rec].
Ltac go := repeat first [same | bnd; [|intros ?] | match goal with
  | |- owes _ _ (match ?x with _ => _ end) _ => destruct x
  | |- owes _ _ (if ?x then _ else _) _ => destruct x
  end].

Lemma se_reverse c n e : ow (reverse_entry io o rec c n e) (fun s => reverse_entry io o (rec' s) c n e).
Proof. unfold reverse_entry. destruct e as [k v]. go. Qed.
Lemma se_index_map c d k m : ow (expand_index_map io ld fin rnd pf o rec c d k m) (fun s => expand_index_map io s fin rnd pf o (rec' s) c d k m).
Proof.
  unfold expand_index_map. refine (owes_flat _ _ _ _ _ _). intros [ix v]. bnd; [go|intros mc].
  bnd; [same|intros x]. bnd; [same|intros ev]. same.
Qed.
Lemma se_property c key v : ow (expand_property io ld fin rnd pf o rec c key v) (fun s => expand_property io s fin rnd pf o (rec' s) c key v).
Proof.
  unfold expand_property. destruct (match prop_def c (Some key) with Some d => match nd_typ d with Some TyJson => true | _ => false end | None => false end); [same|].
  destruct v; try apply Rec. destruct (has_container _ CKLanguage); [same|].
  destruct (orb _ _); [bnd; [apply se_index_map|intros; same]|apply Rec].
Qed.
Lemma se_property_entry c key p v n : ow (property_entry io ld fin rnd pf o rec c key p v n) (fun s => property_entry io s fin rnd pf o (rec' s) c key p v n).
Proof.
  unfold property_entry. destruct (id_has_colon p); [|same]. bnd; [same|intros keep]. destruct (negb keep); [same|]. bnd; [apply se_property|intros x; same].
Qed.
Section Self.
Variable self : actx -> list xentry -> nstate -> result nstate xerr.
Variable self' : loader -> actx -> list xentry -> nstate -> result nstate xerr.
Hypothesis Self : forall c es s, ow (self c es s) (fun l => self' l c es s).
Lemma se_nest c key s v : ow (nest_entry io ld pf o self c key s v) (fun l => nest_entry io l pf o (self' l) c key s v).
Proof. unfold nest_entry. bnd; [go|intros c']. destruct v; try apply owes_err. bnd; [same|intros es; apply Self]. Qed.
Lemma se_keyword ap c tsc s key k v : ow (keyword_entry io ld fin rnd pf o rec self ap c tsc s key k v) (fun l => keyword_entry io l fin rnd pf o (rec' l) (self' l) ap c tsc s key k v).
Proof.
  unfold keyword_entry. destruct (ap_is ap KReverse); [same|]. destruct (andb _ _); [same|].
  destruct k; try same.
  all: try solve [go].
  - refine (owes_fold _ _ _ _ _ _ _). intros s' x. apply se_nest.
  - destruct v; try same. bnd; [refine (owes_fold _ _ _ _ _ _ _); intros; apply se_reverse|intros; same].
Qed.
Lemma se_entry ap c tsc s e : ow (node_entry io ld fin rnd pf o rec self ap c tsc s e) (fun l => node_entry io l fin rnd pf o (rec' l) (self' l) ap c tsc s e).
Proof.
  unfold node_entry. destruct e as [[key t] v]. destruct t as [|p|k]; [same| |destruct k; try apply se_keyword; same].
  bnd; [apply se_property_entry|intros; same].
Qed.
End Self.
Lemma se_entries ap tsc : forall m c es s, ow (node_entries io ld fin rnd pf o rec m ap tsc c es s) (fun l => node_entries io l fin rnd pf o (rec' l) m ap tsc c es s).
Proof.
  induction m as [|m IH]; intros c es s; cbn; [same|]. refine (owes_fold _ _ _ _ _ _ _). intros s' e.
  apply (se_entry _ (fun l => node_entries io l fin rnd pf o (rec' l) m ap tsc)). exact IH.
Qed.
Lemma se_node m ap c tsc es : ow (expand_node io ld fin rnd pf o rec m ap c tsc es) (fun l => expand_node io l fin rnd pf o (rec' l) m ap c tsc es).
Proof. unfold expand_node. bnd; [apply se_entries|intros [r b]; same]. Qed.
Lemma se_context c ap m fm : ow (element_context io ld pf o base_url c ap m fm) (fun l => element_context io l pf o base_url c ap m fm).
Proof. unfold element_context. bnd; [same|intros [hv hi]]. go. Qed.
Lemma se_map m c ap l fm : ow (expand_map io ld fin rnd pf o base_url rec m c ap l fm) (fun s => expand_map io s fin rnd pf o base_url (rec' s) m c ap l fm).
Proof.
  unfold expand_map. bnd; [apply se_context|intros tsc]. bnd; [same|intros ts].
  bnd; [unfold type_scoped; refine (owes_fold _ _ _ _ _ _ _); intros; refine (owes_fold _ _ _ _ _ _ _); intros; go|intros c1]. bnd; [same|intros it]. bnd; [same|intros es].
  destruct (if is_some ap && negb (ap_is ap KGraph) then last_entry KList es else None).
  - bnd; [same|intros i]. bnd; [refine (owes_flat _ _ _ _ _ _); intros x; go|intros; same].
  - destruct (last_entry KSet es); [go|]. destruct (last_entry KValue es); [same|]. bnd; [apply se_node|intros; same].
Qed.
Lemma se_scalar c ap j : ow (expand_scalar io ld pf o c ap j) (fun s => expand_scalar io s pf o c ap j).
Proof. unfold expand_scalar. go. Qed.
Lemma se_body m c ap j fm : ow (element_body io ld fin rnd pf o base_url rec m c ap j fm) (fun s => element_body io s fin rnd pf o base_url (rec' s) m c ap j fm).
Proof.
  unfold element_body. destruct j; try apply se_scalar; try same; [|apply se_map].
  bnd; [refine (owes_flat _ _ _ _ _ _); intros x; go|intros; same].
Qed.
End Entries.
Lemma se_element : forall n c ap j fm, ow (expand_element io ld fin rnd pf o base_url n c ap j fm) (fun s => expand_element io s fin rnd pf o base_url n c ap j fm).
Proof.
  induction n as [|n IH]; intros c ap j fm; cbn [expand_element]; [apply owes_refl|].
  apply (se_body _ (fun s => expand_element io s fin rnd pf o base_url n)). exact IH.
Qed.
Theorem expand_owes n c doc : ow (expand io ld fin rnd pf o base_url n c doc) (fun s => expand io s fin rnd pf o base_url n c doc).
Proof. unfold expand. bnd; [apply se_element|intros; apply owes_refl]. Qed.
End Expansion.

Section Compaction.
Variables (io : iops) (ld : loader) (rel : string -> string -> string) (pf : nat) (o : copts).
Notation ow := (owes is_context ld).
Ltac bnd := refine (owes_bind _ _ _ _ _ _ _ _).

Lemma sk_process c lc u po : ow (kprocess io ld pf c lc u po) (fun s => kprocess io s pf c lc u po).
Proof. apply owes_map_err, process_owes. Qed.
Lemma sk_scoped dc c ap : ow (scoped io ld pf o dc c ap) (fun s => scoped io s pf o dc c ap).
Proof. unfold scoped. destruct (prop_def dc ap) as [d|]; [|apply owes_refl]. destruct (nd_context d); [apply sk_process|apply owes_refl]. Qed.
Lemma sk_value c ap i v : ow (compact_value io ld rel pf o c ap i v) (fun s => compact_value io s rel pf o c ap i v).
Proof. unfold compact_value. bnd; [apply sk_scoped|intros; apply owes_refl]. Qed.

Section Items.
Variable rec : option string -> obj -> actx -> actx -> option string -> result json kerr.
Variable rec' : loader -> option string -> obj -> actx -> actx -> option string -> result json kerr.
Hypothesis Rec : forall i x c t ap, ow (rec i x c t ap) (fun s => rec' s i x c t ap).

Ltac same := first [apply owes_refl | apply owes_err | apply sk_process | apply sk_scoped | apply Rec].
Ltac go := repeat first [same | bnd; [|intros ?] | match goal with
  | |- owes _ _ (match ?x with _ => _ end) _ => destruct x
  | |- owes _ _ (if ?x then _ else _) _ => destruct x
  end].

Lemma sk_collection l c t ap : ow (compact_collection o rec l c t ap) (fun s => compact_collection o (rec' s) l c t ap).
Proof. unfold compact_collection. bnd; [refine (owes_flat _ _ _ _ _ _); intros x; go|intros; same]. Qed.
Lemma sk_property_list l i m cn b key c : ow (compact_property_list rel o rec l i m cn b key c) (fun s => compact_property_list rel o (rec' s) l i m cn b key c).
Proof. unfold compact_property_list. bnd; [apply sk_collection|intros; same]. Qed.
Lemma sk_property_graph n g i m cn b key c : ow (compact_property_graph rel o rec n g i m cn b key c) (fun s => compact_property_graph rel o (rec' s) n g i m cn b key c).
Proof. unfold compact_property_graph. bnd; [apply sk_collection|intros; same]. Qed.
Lemma sk_in_map m k f g : (forall x, ow (f x) (fun s => g s x)) -> ow (in_map m k f) (fun s => in_map m k (g s)).
Proof.
  intros H. unfold in_map. bnd; [same|intros v]. destruct v as [[]|]; try same; (bnd; [apply H|intros; same]).
Qed.
Lemma sk_nest m c key f g : (forall x, ow (f x) (fun s => g s x)) -> ow (with_nest m c key f) (fun s => with_nest m c key (g s)).
Proof.
  intros F. unfold with_nest. destruct (prop_def c (Some key)) as [d|]; [|apply F]. destruct (nd_nest d) as [n|]; [|apply F].
  destruct (match n with TNest => true | TNestTerm t => _ end); [apply sk_in_map, F|same].
Qed.
Lemma sk_map_entry cn key x j c : ow (map_entry rel o rec cn key x j c) (fun s => map_entry rel o (rec' s) cn key x j c).
Proof. unfold map_entry. bnd; [|intros [k j1]; same]. go. Qed.
Lemma sk_plain x m cn b key c : ow (compact_plain rel o rec x m cn b key c) (fun s => compact_plain rel o (rec' s) x m cn b key c).
Proof.
  unfold compact_plain. bnd; [same|intros j]. destruct (_ && _)%bool; [|same]. refine (sk_in_map _ _ _ _ _). intros y. bnd; [apply sk_map_entry|intros [k j1]; same].
Qed.
Lemma sk_item t c r m x : ow (compact_item rel o rec t c r m x) (fun s => compact_item rel o (rec' s) t c r m x).
Proof.
  unfold compact_item. bnd; [same|intros [key|]]; [|same]. refine (sk_nest _ _ _ _ _ _). clear m. intros m.
  destruct (snd x) as [v|n|l]; [apply sk_plain| |apply sk_property_list]. destruct (if is_graph n then n_graph n else None); [apply sk_property_graph|apply sk_plain].
Qed.
Lemma sk_property t l c r m : ow (compact_property rel o rec t l c r m) (fun s => compact_property rel o (rec' s) t l c r m).
Proof. unfold compact_property. destruct l as [|y l]; [same|]. refine (owes_fold _ _ _ _ _ _ _). intros. apply sk_item. Qed.
Lemma sk_types_context t n c : ow (compact_types_context io ld rel pf o t n c) (fun s => compact_types_context io s rel pf o t n c).
Proof. unfold compact_types_context. bnd; [same|intros ts]. refine (owes_fold _ _ _ _ _ _ _). intros. go. Qed.
Lemma sk_node_body n i c t ap m : ow (compact_node_body io ld rel pf o rec n i c t ap m) (fun s => compact_node_body io s rel pf o (rec' s) n i c t ap m).
Proof.
  unfold compact_node_body. bnd; [same|intros m1]. bnd.
  - destruct (opt_list (n_reverse n)) as [|x l]; [same|]. bnd; [same|intros c1]. bnd; [refine (owes_fold _ _ _ _ _ _ _); intros; apply sk_property|intros; same].
  - intros [c1 m2]. bnd; [same|intros m3]. bnd; [destruct (n_graph n); [apply sk_property|same]|intros m4].
    bnd; [refine (owes_fold _ _ _ _ _ _ _); intros; apply sk_property|intros m5]. bnd; [destruct (n_included n); [apply sk_property|same]|intros; same].
Qed.
Lemma sk_node_in n i c t ap : ow (compact_node_in io ld rel pf o rec n i c t ap) (fun s => compact_node_in io s rel pf o (rec' s) n i c t ap).
Proof.
  unfold compact_node_in. destruct (n_id n) as [x|]; [|apply sk_node_body].
  destruct (if n_empty n then mapped_type (prop_def c ap) else None) as [[]|]; try same.
  all: bnd; [same|intros ?]; bnd; [same|intros ?]; apply sk_node_body.
Qed.
Lemma sk_node n i c t ap : ow (compact_node io ld rel pf o rec n i c t ap) (fun s => compact_node io s rel pf o (rec' s) n i c t ap).
Proof. unfold compact_node. bnd; [same|intros a]. bnd; [apply sk_types_context|intros; apply sk_node_in]. Qed.
Lemma sk_list l i c t ap : ow (compact_list io ld rel pf o rec l i c t ap) (fun s => compact_list io s rel pf o (rec' s) l i c t ap).
Proof.
  unfold compact_list. bnd; [same|intros a]. destruct (c_contains _ CKList); [apply sk_collection|]. bnd; [apply sk_property|intros; same].
Qed.
End Items.
Lemma sk_object n : forall i x c t ap, ow (compact_object io ld rel pf o n i x c t ap) (fun s => compact_object io s rel pf o n i x c t ap).
Proof.
  induction n as [|n IH]; intros i x c t ap; cbn [compact_object]; [apply owes_refl|]. destruct x as [v|y|l].
  - apply sk_value.
  - apply (sk_node _ (fun s => compact_object io s rel pf o n)). exact IH.
  - apply (sk_list _ (fun s => compact_object io s rel pf o n)). exact IH.
Qed.
Theorem compact_owes n c j doc : ow (compact io ld rel pf o n c j doc) (fun s => compact io s rel pf o n c j doc).
Proof. unfold compact. bnd; [apply (sk_collection _ (fun s => compact_object io s rel pf o n)), sk_object|intros; apply owes_refl]. Qed.
End Compaction.

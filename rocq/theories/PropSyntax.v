(** Property theorems: C01-C05, C08, C20, C22. *)
From Verif Require Import Prelude Keyword Enums LangTag Container Json Compare Stack LangString AddValue.

(** The keywords of JSON-LD 1.1 (section 1.7 "Keywords" of the syntax specification). *)
Definition spec_keywords : list string :=
  ["@base"; "@container"; "@context"; "@direction"; "@graph"; "@id"; "@import"; "@included";
   "@index"; "@json"; "@language"; "@list"; "@nest"; "@none"; "@prefix"; "@propagate";
   "@protected"; "@reverse"; "@set"; "@type"; "@value"; "@version"; "@vocab"].

(** C01 *)
Theorem C01_keyword_text_bijection :
  (forall s k, kw_of_str s = Some k <-> s = kw_str k) /\
  (forall a b, kw_str a = kw_str b -> a = b) /\
  (forall s, is_keyword s = true <-> In s spec_keywords).
Proof.
  split; [|split].
  - intros s k. split; [apply kw_of_str_sound|]. intros ->. apply kw_of_str_kw_str.
  - exact kw_str_inj.
  - intro s. split.
    + rewrite is_keyword_iff. intros (k & ->). apply mem_str_In. destruct k; reflexivity.
    + intro H. simpl in H. repeat (destruct H as [<-|H]; [reflexivity|]). destruct H.
Qed.
Print Assumptions C01_keyword_text_bijection.

Theorem C01_keyword_like :
  (forall k, is_keyword_like (kw_str k) = true) /\
  (forall s, is_keyword_like s = true <->
     exists c r, s = String "@" (String c r) /\
                 Forall is_letter (c :: list_ascii_of_string r)).
Proof. split; [exact keywords_keyword_like|exact is_keyword_like_iff]. Qed.
Print Assumptions C01_keyword_like.

Example C01_example :
  kw_of_str "@container" = Some KContainer /\ kw_of_str "container" = None /\
  is_keyword_like "@foo" = true /\ is_keyword_like "@" = false /\ is_keyword_like "@foo1" = false.
Proof. repeat split. Qed.

(** C02.  The full claim also covers error codes; it fails for one of them, see below. *)
Theorem C02_enum_text_roundtrip_partial :
  (forall s d, dir_of_str s = Some d <-> s = dir_str d) /\
  (forall s c, ckind_of_str s = Some c <-> s = ckind_str c) /\
  (forall k c, ckind_of_kw k = Some c <-> k = ckind_kw c) /\
  (forall s t, tkw_of_str s = Some t <-> s = tkw_str t) /\
  (forall s m, mode_of_str s = Some m <-> s = mode_str m) /\
  (forall s e, ec_of_str s = Some e -> s = ec_str e) /\
  (forall e, e <> ECDuplicateKey -> ec_of_str (ec_str e) = Some e).
Proof.
  repeat split.
  - apply dir_sound.
  - intros ->. apply dir_roundtrip.
  - apply ckind_sound.
  - intros ->. apply ckind_roundtrip.
  - apply ckind_kw_sound.
  - intros ->. apply ckind_kw_roundtrip.
  - apply tkw_sound.
  - intros ->. apply tkw_roundtrip.
  - apply mode_sound.
  - intros ->. apply mode_roundtrip.
  - exact ec_sound.
  - exact ec_roundtrip_partial.
Qed.
Print Assumptions C02_enum_text_roundtrip_partial.

(** The texts are those of the specification. *)
Theorem C02_enum_texts :
  dir_str Ltr = "ltr" /\ dir_str Rtl = "rtl" /\
  (forall s, (exists c, s = ckind_str c) <->
     In s ["@graph"; "@id"; "@index"; "@language"; "@list"; "@set"; "@type"]) /\
  (forall s, (exists t, s = tkw_str t) <-> In s ["@id"; "@json"; "@none"; "@vocab"]) /\
  mode_str JsonLd10 = "json-ld-1.0" /\ mode_str JsonLd11 = "json-ld-1.1".
Proof.
  repeat split.
  - intros (c & ->). destruct c; simpl; tauto.
  - simpl. intros [<-|[<-|[<-|[<-|[<-|[<-|[<-|[]]]]]]]];
      [exists CKGraph|exists CKId|exists CKIndex|exists CKLanguage|exists CKList|exists CKSet|exists CKType]; reflexivity.
  - intros (t & ->). destruct t; simpl; tauto.
  - simpl. intros [<-|[<-|[<-|[<-|[]]]]]; [exists TKId|exists TKJson|exists TKNone|exists TKVocab]; reflexivity.
Qed.
Print Assumptions C02_enum_texts.

(** The text of [ErrorCode::DuplicateKey] is not parsed back. *)
Theorem C02_enum_text_roundtrip_refuted : exists e, ec_of_str (ec_str e) <> Some e.
Proof. exists ECDuplicateKey. rewrite ec_duplicate_key. discriminate. Qed.
Print Assumptions C02_enum_text_roundtrip_refuted.

Example C02_example :
  ec_of_str "cyclic IRI mapping" = Some ECCyclicIriMapping /\ ECCyclicIriMapping <> ECDuplicateKey /\
  dir_of_str "rtl" = Some Rtl /\ tkw_of_str "@set" = None.
Proof. repeat split; discriminate. Qed.

(** C03 *)
Theorem C03_langtag_eq :
  (forall a b, ci_eq a b = true <-> Forall2 same_letter a b) /\
  (forall a, ci_eq a a = true) /\
  (forall a b, ci_eq a b = true -> ci_eq b a = true) /\
  (forall a b c, ci_eq a b = true -> ci_eq b c = true -> ci_eq a c = true).
Proof. repeat split; [apply ci_eq_spec|apply ci_eq_spec|exact ci_eq_refl|exact ci_eq_sym|exact ci_eq_trans]. Qed.
Print Assumptions C03_langtag_eq.

Theorem C03_langtag_ord :
  (forall a b, ci_cmp a b = Eq <-> ci_eq a b = true) /\
  (forall a b, ci_cmp b a = CompOpp (ci_cmp a b)) /\
  (forall o a b c, ci_cmp a b = o -> ci_cmp b c = o -> ci_cmp a c = o) /\
  (forall a a' b b', ci_eq a a' = true -> ci_eq b b' = true -> ci_cmp a b = ci_cmp a' b').
Proof. repeat split; [apply ci_cmp_eq|apply ci_cmp_eq|apply ci_cmp_antisym|exact ci_cmp_trans|exact ci_cmp_compat]. Qed.
Print Assumptions C03_langtag_ord.

Theorem C03_langtag_hash : forall a b, ci_eq a b = true <-> ci_hash_bytes a = ci_hash_bytes b.
Proof. exact ci_hash_eq. Qed.
Print Assumptions C03_langtag_hash.

Example C03_example :
  ci_eq (list_ascii_of_string "en-US") (list_ascii_of_string "EN-us") = true /\
  ci_eq (list_ascii_of_string "en") (list_ascii_of_string "fr") = false /\
  ci_cmp (list_ascii_of_string "en") (list_ascii_of_string "FR") = Lt.
Proof. repeat split. Qed.

(** C04 *)
Theorem C04_json_compare : forall a b, unique_keys a -> unique_keys b ->
  exists r, compare a b = Some r /\ (r = true <-> jeq a b).
Proof. exact compare_correct. Qed.
Print Assumptions C04_json_compare.

Theorem C04_json_compare_equivalence :
  (forall a, jeq a a) /\ (forall a b, jeq a b -> jeq b a) /\
  (forall a b c, jeq a b -> jeq b c -> jeq a c).
Proof. split; [exact jeq_refl|]. split; [exact jeq_sym|exact jeq_trans]. Qed.
Print Assumptions C04_json_compare_equivalence.

(** Outside the hypothesis the comparison panics. *)
Theorem C04_duplicate_keys_panic_refuted : exists a b, compare a b = None.
Proof. eexists. eexists. exact compare_panics. Qed.
Print Assumptions C04_duplicate_keys_panic_refuted.

Example C04_example :
  let a := JArr [JArr [JNull; JNum "1"]; JObj [("x", JNull); ("y", JStr "s")]] in
  let b := JArr [JObj [("y", JStr "s"); ("x", JNull)]; JArr [JNum "1"; JNull]] in
  unique_keys a /\ unique_keys b /\ compare a b = Some true /\
  compare (JArr [JNull; JNull; JNum "1"]) (JArr [JNull; JNum "1"; JNum "1"]) = Some false.
Proof.
  simpl. repeat split; repeat constructor; simpl; intuition discriminate.
Qed.

(** C05.  The full claim drops the hypothesis [~ late_index l]; it is refuted below. *)
Theorem C05_container_kinds_partial : forall l, ~ late_index l ->
  match c_from l with
  | Some c => same_members (as_slice c) l /\ allowed l
  | None => ~ allowed l
  end.
Proof. exact c_from_exact. Qed.
Print Assumptions C05_container_kinds_partial.

Theorem C05_container_order_partial : forall l m, ~ late_index l -> ~ late_index m ->
  same_members l m -> c_from l = c_from m.
Proof. exact c_from_order_independent. Qed.
Print Assumptions C05_container_order_partial.

Theorem C05_container_contains : forall c k, c_contains c k = true <-> In k (as_slice c).
Proof. intros c k. apply memb_In. Qed.
Print Assumptions C05_container_contains.

Theorem C05_container_syntax_roundtrip : forall c,
  match c_into_syntax c with
  | Some s => c_from_syntax (NSome s) = Some c
  | None => c_from_syntax NNull = Some c
  end.
Proof. exact c_syntax_roundtrip. Qed.
Print Assumptions C05_container_syntax_roundtrip.

(** [@graph, @set, @index] is read as a graph/id/set container, unlike
    [@graph, @index, @set]; and [@graph, @set, @index, @id] is accepted. *)
Theorem C05_container_kinds_refuted :
  (exists l c, c_from l = Some c /\ allowed l /\ ~ same_members (as_slice c) l) /\
  (exists l m, same_members l m /\ c_from l <> c_from m) /\
  (exists l c, c_from l = Some c /\ ~ allowed l).
Proof.
  split; [|split].
  - exists [CKGraph; CKSet; CKIndex], CGraphIdSet. split; [reflexivity|]. split.
    + apply allowed_b_spec. reflexivity.
    + intro H. apply same_members_b_spec in H. discriminate.
  - exists [CKGraph; CKSet; CKIndex], [CKGraph; CKIndex; CKSet]. split.
    + apply same_members_b_spec. reflexivity.
    + discriminate.
  - exists [CKGraph; CKSet; CKIndex; CKId], CGraphIdSet. split; [reflexivity|].
    intro H. apply allowed_b_spec in H. discriminate.
Qed.
Print Assumptions C05_container_kinds_refuted.

Example C05_example :
  ~ late_index [CKSet; CKIndex; CKGraph; CKSet] /\
  c_from [CKSet; CKIndex; CKGraph; CKSet] = Some CGraphIndexSet /\
  c_from [CKList; CKSet] = None.
Proof.
  split; [|split; reflexivity].
  intros (p & q & E & N & G & S). destruct p as [|a [|b p]]; simpl in *; inversion E; subst; simpl in *;
    intuition (try discriminate).
Qed.

(** C08 *)
Theorem C08_push_exact : forall H h s u,
  nth_error (srun H) h = Some s ->
  (on_chain (rev H) h u -> ps_push s u = (false, s)) /\
  (~ on_chain (rev H) h u -> exists s', ps_push s u = (true, s') /\ ps_urls s' = u :: ps_urls s) /\
  (forall v, In v (ps_urls s) <-> on_chain (rev H) h v) /\
  NoDup (ps_urls s).
Proof.
  intros H h s u E. pose proof (srun_chain H h s u E) as C. destruct (ps_push_spec s u) as [P1 P2].
  split; [rewrite <- C; exact P1|]. split; [rewrite <- C; exact P2|].
  split; [intro v; apply (srun_chain H h s v E)|apply (srun_nodup H h s E)].
Qed.
Print Assumptions C08_push_exact.

(** The answer of a push within a history; the other stacks are untouched. *)
Theorem C08_push_in_history : forall H h u s,
  nth_error (srun H) h = Some s ->
  (snd (sstep (srun H) (OpPush h u)) = false <-> on_chain (rev H) h u) /\
  forall g, g <> h -> nth_error (srun (H ++ [OpPush h u])) g = nth_error (srun H) g.
Proof.
  intros H h u s E. destruct (C08_push_exact H h s u E) as (P1 & P2 & C & _). split.
  - simpl. rewrite E. split.
    + intro F. destruct (in_dec string_dec u (ps_urls s)) as [I|N]; [apply C, I|].
      destruct P2 as (s' & Es & _); [rewrite <- C; exact N|]. rewrite Es in F. discriminate.
    + intro O. rewrite (P1 O). reflexivity.
  - intros g N. rewrite srun_snoc. simpl. rewrite E. destruct (ps_push s u) as [b s'].
    simpl. apply nth_upd_other. congruence.
Qed.
Print Assumptions C08_push_in_history.

Example C08_example :
  let H := [OpNew; OpPush 0 "a"; OpClone 0; OpPush 1 "b"; OpPush 0 "c"] in
  map ps_urls (srun H) = [["c"; "a"]; ["b"; "a"]] /\
  snd (sstep (srun H) (OpPush 1 "a")) = false /\
  snd (sstep (srun H) (OpPush 1 "c")) = true.
Proof. repeat split. Qed.

(** C20 *)
Theorem C20_add_value : forall m key value as_array, NoDup (keys m) ->
  exists m', add_value m key value as_array = Some m' /\
    NoDup (keys m') /\
    values_of m' key = values_of m key ++ leaves value /\
    (forall k, k <> key -> assoc k m' = assoc k m) /\
    (as_array = true -> exists l, assoc key m' = Some (JArr l)).
Proof.
  intros m key value b N. destruct (add_value_ok value m key b N) as (m' & E & H1 & H2 & H3 & H4 & _).
  exists m'. auto 10.
Qed.
Print Assumptions C20_add_value.

(** The exact shape of the entry, for arguments without nested arrays: a single value is stored
    alone only if the key was absent and no array is asked for. *)
Theorem C20_add_value_shape : forall m key value as_array m', NoDup (keys m) ->
  (forall l, value = JArr l -> forall x y, In x l -> x <> JArr y) ->
  add_value m key value as_array = Some m' ->
  assoc key m' =
  match assoc key m, as_array with
  | None, false => match leaves value with [] => None | [v] => Some v | vs => Some (JArr vs) end
  | None, true => Some (JArr (leaves value))
  | Some (JArr l), _ => Some (JArr (l ++ leaves value))
  | Some v, _ => Some (JArr (v :: leaves value))
  end.
Proof.
  intros m key value b m' N F H. rewrite (add_value_shape value m key b m' N); [| |exact H].
  - unfold shape. destruct (assoc key m) as [v|]; [destruct v|destruct b]; try reflexivity.
    destruct (leaves value) as [|x [|y l]]; reflexivity.
  - intros l E x Hx. specialize (F l E x). destruct x as [| | | |y|]; try reflexivity. exfalso. apply (F y Hx). reflexivity.
Qed.
Print Assumptions C20_add_value_shape.

(** Nested arrays are not kept: the items of an array value cannot themselves be arrays. *)
Theorem C20_nested_array_flattened_refuted : exists m key l m',
  add_value m key (JArr l) true = Some m' /\ values_of m' key <> values_of m key ++ l.
Proof. exists [], "p", [JArr [JNull]], [("p", JArr [JNull])]. split; [reflexivity|discriminate]. Qed.
Print Assumptions C20_nested_array_flattened_refuted.

Example C20_example :
  add_value [("q", JNull); ("p", JStr "a")] "p" (JArr [JStr "b"; JNum "1"]) false =
  Some [("q", JNull); ("p", JArr [JStr "a"; JStr "b"; JNum "1"])] /\
  NoDup (keys [("q", JNull); ("p", JStr "a")]).
Proof. split; [reflexivity|]. repeat constructor; simpl; intuition discriminate. Qed.

(** C22 *)
Theorem C22_lang_string_always_tagged : forall data l d s ops,
  ls_new data l d = Ok s -> tagged (ls_run s ops) /\ ls_data (ls_run s ops) = data.
Proof. exact ls_run_tagged. Qed.
Print Assumptions C22_lang_string_always_tagged.

Theorem C22_lang_string_update : forall s o,
  (tagged (requested s o) -> ls_step s o = (Ok tt, requested s o)) /\
  (~ tagged (requested s o) -> ls_step s o = (Err tt, s)).
Proof. exact ls_step_spec. Qed.
Print Assumptions C22_lang_string_update.

Theorem C22_lang_string_new : forall data l d,
  (tagged (MkLS data l d) -> ls_new data l d = Ok (MkLS data l d)) /\
  (~ tagged (MkLS data l d) -> ls_new data l d = Err data).
Proof. exact ls_new_spec. Qed.
Print Assumptions C22_lang_string_new.

Example C22_example : exists s,
  ls_new "hi" (Some "en") None = Ok s /\
  ls_run s [LsSetDirection (Some Rtl); LsSetLanguage None; LsSetDirection None] = MkLS "hi" None (Some Rtl).
Proof. eexists. split; reflexivity. Qed.

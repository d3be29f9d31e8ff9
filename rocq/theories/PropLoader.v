(** Property theorems: C35-C38. *)
From Verif Require Import Prelude Headers Loader.

(** C35: [Link::new] accepts exactly the written forms, and gives back what was written.
    [iri_ref_ok] is the external IRI reference grammar. *)
Theorem C35_link_iff : forall iri_ref_ok s h ps,
  link_new iri_ref_ok s = Some (h, ps) <->
  iri_ref_ok h = true /\ no_char ">" h /\
  exists l, s = link_print h l /\ Forall (fun p => wp_ok p /\ wp_quoted p = true) l /\
            ps = map wp_pair (rev l).
Proof.
  intros ok s h ps. split.
  - apply link_sound.
  - intros (Hi & Hh & l & -> & Hl & ->). apply link_complete; assumption.
Qed.
Print Assumptions C35_link_iff.

Theorem C35_link_last_value_wins : forall iri_ref_ok h l,
  no_char ">" h -> iri_ref_ok h = true -> Forall (fun p => wp_ok p /\ wp_quoted p = true) l ->
  exists lk, link_new iri_ref_ok (link_print h l) = Some lk /\ fst lk = h /\
    link_rel lk = last_value "rel" l /\ link_type lk = last_value "type" l.
Proof.
  intros ok h l Hh Hi Hl. eexists. split; [apply link_complete; eassumption|]. repeat split.
Qed.
Print Assumptions C35_link_last_value_wins.

Example C35_example :
  let l := [MkWP 1 "rel" true "alternate"; MkWP 0 "type" true "application/ld+json"] in
  link_print "doc.jsonld" l = "<doc.jsonld>; rel=""alternate"";type=""application/ld+json""" /\
  Forall (fun p => wp_ok p /\ wp_quoted p = true) l /\
  link_new (fun _ => true) (link_print "doc.jsonld" l) =
    Some ("doc.jsonld", [("type", "application/ld+json"); ("rel", "alternate")]) /\
  link_new (fun _ => true) "<a>; rel=alternate" = None.
Proof.
  split; [reflexivity|]. split; [|split; reflexivity].
  repeat constructor; simpl; discriminate.
Qed.

(** C36: the same for [ContentType::new]; [mime_parse] is the external media type grammar. *)
Theorem C36_content_type_iff : forall mime mime_parse s (m : mime) ps,
  content_type_new mime mime_parse s = Some (m, ps) <->
  exists t l, s = t +++ print_params l /\ no_char ";" t /\ Forall wp_ok l /\
              mime_parse t = Some m /\ ps = map wp_pair (rev l).
Proof.
  intros mime mp s m ps. unfold content_type_new. split.
  - destruct (ct_loop CTMime "" "" "" [] s) as [[t qs]|] eqn:E; [|discriminate].
    destruct (mp t) as [m'|] eqn:Em; [|discriminate]. intro H. inversion H; subst.
    apply ct_loop_iff in E. destruct E as (l & -> & Ht & Hl & ->). exists t, l. auto.
  - intros (t & l & -> & Ht & Hl & Em & ->).
    assert (E : ct_loop CTMime "" "" "" [] (t +++ print_params l) = Some (t, map wp_pair (rev l))).
    { apply ct_loop_iff. exists l. auto. }
    rewrite E, Em. reflexivity.
Qed.
Print Assumptions C36_content_type_iff.

Example C36_example :
  let l := [MkWP 1 "profile" true "a b"; MkWP 1 "q" false "1"] in
  Forall wp_ok l /\
  "application/ld+json" +++ print_params l = "application/ld+json; profile=""a b""; q=1" /\
  content_type_new string (@Some string) "application/ld+json; profile=""a b""; q=1" =
    Some ("application/ld+json", [("q", "1"); ("profile", "a b")]).
Proof.
  split; [|split; reflexivity].
  repeat constructor; simpl; try discriminate.
Qed.

(** C37 *)
Section C37.
  Variables (iri_ref_ok : string -> bool) (resolve : string -> string -> string)
            (mime : Type) (mime_parse : string -> option mime) (mime_is : mime -> string -> bool)
            (document : Type) (parse_body : string -> option document)
            (server : nat -> string -> option response).

  Let load_ := load iri_ref_ok resolve mime mime_parse mime_is document parse_body server.

  (** Whatever the servers answer, at most [max + 1] requests are sent, the loop ends, each
      request but the last was answered by a redirection to the next one, and the outcome
      is justified by the last answer. *)
  Theorem C37_load_bounded_and_exact : forall max url o t,
    load_ max url = (o, t) ->
    1 <= length t <= S max /\
    nth_error t 0 = Some url /\
    redirect_chain iri_ref_ok resolve mime mime_parse mime_is server 0 t /\
    (o = Err LETooManyRedirections -> length t = S max) /\
    exists u, nth_error t (length t - 1) = Some u /\
      final_ok iri_ref_ok resolve mime mime_parse mime_is document parse_body server (length t - 1) u o.
  Proof.
    intros max url o t E. unfold load_, load in E.
    apply load_loop_spec in E; [|lia|lia]. destruct E as (L & H0 & C & F).
    destruct t as [|u t]; [destruct F as [_ F]; discriminate|].
    split; [simpl in *; lia|]. split; [simpl; rewrite (H0 u eq_refl); reflexivity|].
    split; [exact C|]. destruct F as (FT & v & Ev & Fv). split; [intro Eo; rewrite (FT Eo); lia|].
    exists v. split; [exact Ev|]. exact Fv.
  Qed.
End C37.
Print Assumptions C37_load_bounded_and_exact.

(** A server redirecting once, then answering plain JSON with one context link. *)
Example C37_example :
  let server := fun (n : nat) (_ : string) =>
    match n with
    | 0 => Some (MkResp 200 ["text/html"] ["<d.json>; rel=""alternate""; type=""application/ld+json"""] None)
    | _ => Some (MkResp 200 ["application/json"] ["<c.json>; rel=""http://www.w3.org/ns/json-ld#context"""] (Some "{}"))
    end in
  load (fun _ => true) (fun r _ => r) string (@Some string) streq string (@Some string) server 8 "http://a" =
    (Ok (MkDoc string string "d.json" "application/json" (Some "c.json") "{}"), ["http://a"; "d.json"]) /\
  load (fun _ => true) (fun r _ => r) string (@Some string) streq string (@Some string)
    (fun _ _ => server 0 "") 2 "http://a" =
    (Err LETooManyRedirections, ["http://a"; "d.json"; "d.json"]).
Proof. split; reflexivity. Qed.

(** C38 *)
Theorem C38_chain_first_success : forall url doc cause basic both l (u : url),
  match chain_load url doc cause basic both l u with
  | (Ok d, t) => exists p i q, basics l = p ++ i :: q /\ t = p ++ [i] /\
                   basic i u = Ok d /\ Forall (fails url doc cause basic u) p
  | (Err e, t) => t = basics l /\ Forall (fails url doc cause basic u) (basics l)
  end.
Proof. exact chain_load_spec. Qed.
Print Assumptions C38_chain_first_success.

Example C38_example :
  let basic := fun i (_ : unit) => if i =? 0 then Err tt else Ok i in
  chain_load unit nat unit basic (fun _ _ => tt) (Chain (Basic 0) (Chain (Basic 1) (Basic 2))) tt = (Ok 1, [0; 1]).
Proof. reflexivity. Qed.

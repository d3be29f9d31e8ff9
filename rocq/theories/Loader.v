(** Model of crates/core/src/loader/reqwest/mod.rs ([ReqwestLoader::load]) and
    crates/core/src/loader/chain.rs ([ChainLoader::load]). *)
From Verif Require Import Prelude Headers.

Section Reqwest.
  (** External crates: IRI references ([iref]), reference resolution ([iref]), media types
      ([mime]; [mime_is] is [Mime == str]), JSON parsing of the body ([json_syntax]). *)
  Variable iri_ref_ok : string -> bool.
  Variable resolve : string -> string -> string.   (* reference, base *)
  Variable mime : Type.
  Variable mime_parse : string -> option mime.
  Variable mime_is : mime -> string -> bool.
  Variable document : Type.
  Variable parse_body : string -> option document.

  (** What a server answers: status code, [Content-Type] headers, [Link] headers and body
      ([None]: the transfer failed). *)
  Record response : Type := MkResp {
    r_status : nat;
    r_content_types : list string;
    r_links : list string;
    r_body : option string
  }.

  (** The network: the answer to the [n]-th request of a load, for a URL ([None]: the request
      failed).  Nothing is assumed about it. *)
  Variable server : nat -> string -> option response.

  (** mod.rs 56-75 (enum [Error]). *)
  Inductive load_error : Type :=
  | LEReqwest
  | LEQueryFailed (code : nat)
  | LEInvalidContentType
  | LEMultipleContextLinkHeaders
  | LETooManyRedirections
  | LEParse
  | LEOutOfFuel.  (* not an error of the code: the model ran out of fuel *)

  (** The parts of [RemoteDocument] produced by the loader (crates/core/src/loader/mod.rs
      155-185); the [profile] set is not modelled. *)
  Record remote_document : Type := MkDoc {
    d_url : string;
    d_content_type : mime;
    d_context_url : option string;
    d_document : document
  }.

  Definition context_rel : string := "http://www.w3.org/ns/json-ld#context".

  (** content_type.rs 106-108 ([is_json_ld]). *)
  Definition is_json_ld (m : mime) : bool := mime_is m "application/json" || mime_is m "application/ld+json".

  (** mod.rs 168-174: the first [Content-Type] header that parses to a JSON media type. *)
  Fixpoint find_content_type (l : list string) : option mime :=
    match l with
    | [] => None
    | h :: l' =>
        match content_type_new mime mime_parse h with
        | Some (m, _) => if is_json_ld m then Some m else find_content_type l'
        | None => find_content_type l'
        end
    end.

  (** mod.rs 178-193: search of the context link. *)
  Fixpoint find_context (url : string) (found : option string) (l : list string)
    : result (option string) load_error :=
    match l with
    | [] => Ok found
    | h :: l' =>
        match link_new iri_ref_ok h with
        | Some lk =>
            if opt_eqb streq (link_rel lk) (Some context_rel) then
              match found with
              | Some _ => Err LEMultipleContextLinkHeaders
              | None => find_context url (Some (resolve (fst lk) url)) l'
              end
            else find_context url found l'
        | None => find_context url found l'
        end
    end.

  (** mod.rs 227-238: the first alternate JSON-LD link. *)
  Fixpoint find_alternate (url : string) (l : list string) : option string :=
    match l with
    | [] => None
    | h :: l' =>
        match link_new iri_ref_ok h with
        | Some lk =>
            if opt_eqb streq (link_rel lk) (Some "alternate") &&
               opt_eqb streq (link_type lk) (Some "application/ld+json")
            then Some (resolve (fst lk) url)
            else find_alternate url l'
        | None => find_alternate url l'
        end
    end.

  (** mod.rs 146-247 ([load]): the loop ['next_url].  Returns the outcome and the list of
      URLs requested. *)
  Fixpoint load_loop (fuel max redirections : nat) (url : string)
    : result remote_document load_error * list string :=
    match fuel with
    | 0 => (Err LEOutOfFuel, [])
    | S fuel' =>
        if max <? redirections then (Err LETooManyRedirections, [])
        else
          match server redirections url with
          | None => (Err LEReqwest, [url])
          | Some r =>
              if r_status r =? 200 then
                match find_content_type (r_content_types r) with
                | Some m =>
                    let ctx := if mime_is m "application/ld+json" then Ok None
                               else find_context url None (r_links r) in
                    match ctx with
                    | Err e => (Err e, [url])
                    | Ok c =>
                        match r_body r with
                        | None => (Err LEReqwest, [url])
                        | Some b =>
                            match parse_body b with
                            | None => (Err LEParse, [url])
                            | Some d => (Ok (MkDoc url m c d), [url])
                            end
                        end
                    end
                | None =>
                    match find_alternate url (r_links r) with
                    | Some url' =>
                        let '(o, t) := load_loop fuel' max (S redirections) url' in (o, url :: t)
                    | None => (Err LEInvalidContentType, [url])
                    end
                end
              else (Err (LEQueryFailed (r_status r)), [url])
          end
    end.

  Definition load (max : nat) (url : string) : result remote_document load_error * list string :=
    load_loop (S (S max)) max 0 url.

  (** ** Specification *)

  (** A [Content-Type] header value denotes a JSON media type. *)
  Definition json_header (h : string) (m : mime) : Prop :=
    (exists ps, content_type_new mime mime_parse h = Some (m, ps)) /\
    (mime_is m "application/json" = true \/ mime_is m "application/ld+json" = true).

  (** The targets of the context links of an answer, in order. *)
  Definition is_context_link (h : string) (target : string) : Prop :=
    exists ps, link_new iri_ref_ok h = Some (target, ps) /\ assoc "rel" ps = Some context_rel.

  Definition is_alternate_link (h : string) (target : string) : Prop :=
    exists ps, link_new iri_ref_ok h = Some (target, ps) /\ assoc "rel" ps = Some "alternate" /\
               assoc "type" ps = Some "application/ld+json".

  (** The [n]-th request of [t] is answered by [r]. *)
  Definition answered (t : list string) (n : nat) (u : string) (r : response) : Prop :=
    nth_error t n = Some u /\ server n u = Some r.

  (** An answer redirecting from [u] to [u']: not JSON, and [u'] is its first alternate link. *)
  Definition redirects (r : response) (u u' : string) : Prop :=
    r_status r = 200 /\
    (forall h m, In h (r_content_types r) -> ~ json_header h m) /\
    exists l1 h l2 target, r_links r = l1 ++ h :: l2 /\ is_alternate_link h target /\
      u' = resolve target u /\ (forall h' t', In h' l1 -> ~ is_alternate_link h' t').

  (** ** Proofs *)
  Lemma opt_eqb_streq_true a b : opt_eqb streq a (Some b) = true <-> a = Some b.
  Proof. destruct a as [x|]; simpl; [|split; discriminate]. rewrite streq_true. split; congruence. Qed.

  Lemma json_header_dec m : is_json_ld m = true <->
    (mime_is m "application/json" = true \/ mime_is m "application/ld+json" = true).
  Proof. unfold is_json_ld. apply orb_true_iff. Qed.

  Lemma find_content_type_spec l :
    match find_content_type l with
    | Some m => exists h, In h l /\ json_header h m
    | None => forall h m, In h l -> ~ json_header h m
    end.
  Proof.
    induction l as [|h l IH]; simpl.
    - intros h m [].
    - destruct (content_type_new mime mime_parse h) as [[m ps]|] eqn:E.
      + destruct (is_json_ld m) eqn:J.
        * exists h. split; [left; reflexivity|]. split; [eauto|]. apply json_header_dec, J.
        * destruct (find_content_type l) as [m'|].
          -- destruct IH as (h' & I & H). exists h'. auto.
          -- intros h' m' [<-|I]; [|apply IH, I]. intros [(ps' & E') H].
             rewrite E in E'. inversion E'; subst. apply json_header_dec in H. congruence.
      + destruct (find_content_type l) as [m'|].
        * destruct IH as (h' & I & H). exists h'. auto.
        * intros h' m' [<-|I]; [|apply IH, I]. intros [(ps' & E') H]. congruence.
  Qed.

  Lemma find_alternate_spec u l :
    match find_alternate u l with
    | Some u' => exists l1 h l2 target, l = l1 ++ h :: l2 /\ is_alternate_link h target /\
        u' = resolve target u /\ (forall h' t', In h' l1 -> ~ is_alternate_link h' t')
    | None => forall h t, In h l -> ~ is_alternate_link h t
    end.
  Proof.
    induction l as [|h l IH]; simpl; [intros h t []|].
    assert (Skip : (forall t, ~ is_alternate_link h t) ->
      match find_alternate u l with
      | Some u' => exists l1 h' l2 target, h :: l = l1 ++ h' :: l2 /\ is_alternate_link h' target /\
          u' = resolve target u /\ (forall h'' t', In h'' l1 -> ~ is_alternate_link h'' t')
      | None => forall h' t, h = h' \/ In h' l -> ~ is_alternate_link h' t
      end).
    { intro N. destruct (find_alternate u l) as [u'|].
      - destruct IH as (l1 & h' & l2 & t & -> & A & E & F).
        exists (h :: l1), h', l2, t. split; [reflexivity|]. split; [exact A|]. split; [exact E|].
        intros h'' t' [<-|I]; [apply N|apply F, I].
      - intros h' t [<-|I]; [apply N|apply IH, I]. }
    destruct (link_new iri_ref_ok h) as [[target ps]|] eqn:E.
    - unfold link_rel, link_type. simpl.
      destruct (opt_eqb streq (assoc "rel" ps) (Some "alternate")) eqn:R; simpl.
      + destruct (opt_eqb streq (assoc "type" ps) (Some "application/ld+json")) eqn:T.
        * apply opt_eqb_streq_true in R. apply opt_eqb_streq_true in T.
          exists [], h, l, target. split; [reflexivity|]. split; [exists ps; auto|]. split; [reflexivity|].
          intros h' t' [].
        * apply Skip. intros t (ps' & E' & R' & T'). rewrite E in E'. inversion E'; subst.
          apply opt_eqb_streq_true in T'. congruence.
      + apply Skip. intros t (ps' & E' & R' & T'). rewrite E in E'. inversion E'; subst.
        apply opt_eqb_streq_true in R'. congruence.
    - apply Skip. intros t (ps' & E' & _). congruence.
  Qed.

  (** The number of context links among headers. *)
  Inductive context_links (u : string) : list string -> list string -> Prop :=
  | CLnil : context_links u [] []
  | CLyes h t l ts : is_context_link h t -> context_links u l ts ->
      context_links u (h :: l) (resolve t u :: ts)
  | CLno h l ts : (forall t, ~ is_context_link h t) -> context_links u l ts ->
      context_links u (h :: l) ts.

  Lemma context_link_dec h : (exists t, is_context_link h t) \/ (forall t, ~ is_context_link h t).
  Proof.
    destruct (link_new iri_ref_ok h) as [[target ps]|] eqn:E.
    - destruct (opt_eqb streq (assoc "rel" ps) (Some context_rel)) eqn:R.
      + left. apply opt_eqb_streq_true in R. exists target, ps. auto.
      + right. intros t (ps' & E' & R'). rewrite E in E'. inversion E'; subst.
        apply opt_eqb_streq_true in R'. congruence.
    - right. intros t (ps' & E' & _). congruence.
  Qed.

  Lemma context_links_total u l : exists ts, context_links u l ts.
  Proof.
    induction l as [|h l (ts & H)]; [exists []; constructor|].
    destruct (context_link_dec h) as [(t & Ht)|N]; [exists (resolve t u :: ts)|exists ts]; constructor; assumption.
  Qed.

  Lemma find_context_spec u l ts : context_links u l ts -> forall found,
    find_context u found l =
    match found, ts with
    | None, [] => Ok None
    | None, [t] => Ok (Some t)
    | Some f, [] => Ok (Some f)
    | _, _ => Err LEMultipleContextLinkHeaders
    end.
  Proof.
    induction 1 as [|h t l ts (ps & E & R) H IH|h l ts N H IH]; intro found; simpl.
    - destruct found; reflexivity.
    - rewrite E. unfold link_rel. cbn [snd]. rewrite (proj2 (opt_eqb_streq_true _ _) R).
      destruct found as [f|]; [reflexivity|]. rewrite IH. destruct ts; reflexivity.
    - rewrite <- IH. destruct (link_new iri_ref_ok h) as [[target ps]|] eqn:E; [|reflexivity].
      unfold link_rel. simpl. destruct (opt_eqb streq (assoc "rel" ps) (Some context_rel)) eqn:R; [|reflexivity].
      exfalso. apply (N target). exists ps. apply opt_eqb_streq_true in R. auto.
  Qed.

  (** Requests [k], [k+1], ... along [t] are each a redirection to the next one. *)
  Fixpoint redirect_chain (k : nat) (t : list string) : Prop :=
    match t with
    | [] => True
    | u :: t' =>
        match t' with
        | [] => True
        | u' :: _ => (exists r, server k u = Some r /\ redirects r u u') /\ redirect_chain (S k) t'
        end
    end.

  (** What the outcome says about the last request, number [k] at URL [u]. *)
  Definition final_ok (k : nat) (u : string) (o : result remote_document load_error) : Prop :=
    match o with
    | Ok d => exists r b, server k u = Some r /\ r_status r = 200 /\ d_url d = u /\
        (exists h, In h (r_content_types r) /\ json_header h (d_content_type d)) /\
        r_body r = Some b /\ parse_body b = Some (d_document d) /\
        (if mime_is (d_content_type d) "application/ld+json" then d_context_url d = None
         else exists ts, context_links u (r_links r) ts /\
              (ts = [] /\ d_context_url d = None \/ exists t, ts = [t] /\ d_context_url d = Some t))
    | Err LEReqwest => server k u = None \/ exists r, server k u = Some r /\ r_status r = 200 /\ r_body r = None
    | Err (LEQueryFailed c) => exists r, server k u = Some r /\ r_status r = c /\ c <> 200
    | Err LEInvalidContentType => exists r, server k u = Some r /\ r_status r = 200 /\
        (forall h m, In h (r_content_types r) -> ~ json_header h m) /\
        (forall h t, In h (r_links r) -> ~ is_alternate_link h t)
    | Err LEMultipleContextLinkHeaders => exists r m, server k u = Some r /\ r_status r = 200 /\
        (exists h, In h (r_content_types r) /\ json_header h m) /\
        mime_is m "application/ld+json" = false /\
        exists ts, context_links u (r_links r) ts /\ 2 <= length ts
    | Err LEParse => exists r b, server k u = Some r /\ r_status r = 200 /\ r_body r = Some b /\ parse_body b = None
    | Err LETooManyRedirections => exists r u', server k u = Some r /\ redirects r u u'
    | Err LEOutOfFuel => False
    end.

  Lemma load_loop_spec fuel : forall max k url o t,
    load_loop fuel max k url = (o, t) ->
    k <= S max -> S max - k < fuel ->
    length t <= S max - k /\
    (forall u0, nth_error t 0 = Some u0 -> u0 = url) /\
    redirect_chain k t /\
    (match t with
     | [] => o = Err LETooManyRedirections /\ k = S max
     | _ => (o = Err LETooManyRedirections -> length t = S max - k) /\
            exists u, nth_error t (length t - 1) = Some u /\ final_ok (k + length t - 1) u o
     end).
  Proof.
    induction fuel as [|fuel IH]; intros max k url o t E Hk Hf; [lia|].
    simpl in E. destruct (Nat.ltb_spec max k) as [L|L].
    - inversion E; subst. simpl. split; [lia|]. split; [discriminate|]. split; [exact I|].
      split; [reflexivity|lia].
    - assert (One : forall o', final_ok k url o' -> o' <> Err LETooManyRedirections ->
        length [url] <= S max - k /\ (forall u0, nth_error [url] 0 = Some u0 -> u0 = url) /\
        redirect_chain k [url] /\
        ((o' = Err LETooManyRedirections -> length [url] = S max - k) /\
         exists u, nth_error [url] (length [url] - 1) = Some u /\ final_ok (k + length [url] - 1) u o')).
      { intros o' F N. simpl length. split; [lia|]. split; [simpl; congruence|]. split; [exact I|].
        split; [intro; contradiction|]. exists url. split; [reflexivity|].
        replace (k + 1 - 1) with k by lia. exact F. }
      destruct (server k url) as [r|] eqn:Es.
      + destruct (Nat.eqb_spec (r_status r) 200) as [S200|S200].
        * pose proof (find_content_type_spec (r_content_types r)) as FC.
          destruct (find_content_type (r_content_types r)) as [m|].
          -- destruct (context_links_total url (r_links r)) as (ts & Hts).
             assert (EC := find_context_spec _ _ _ Hts None). simpl in EC.
             destruct (mime_is m "application/ld+json") eqn:Em.
             ++ destruct (r_body r) as [b|] eqn:Eb; [|inversion E; subst; apply One; [right; eauto|discriminate]].
                destruct (parse_body b) as [d|] eqn:Ep; inversion E; subst; apply One; try discriminate; simpl.
                ** exists r, b. rewrite Em. auto 10.
                ** exists r, b. auto.
             ++ rewrite EC in E. destruct ts as [|t1 [|t2 ts]].
                ** destruct (r_body r) as [b|] eqn:Eb; [|inversion E; subst; apply One; [right; eauto|discriminate]].
                   destruct (parse_body b) as [d|] eqn:Ep; inversion E; subst; apply One; try discriminate; simpl.
                   --- exists r, b. rewrite Em. repeat (split; [auto; fail|]). exists []. auto.
                   --- exists r, b. auto.
                ** destruct (r_body r) as [b|] eqn:Eb; [|inversion E; subst; apply One; [right; eauto|discriminate]].
                   destruct (parse_body b) as [d|] eqn:Ep; inversion E; subst; apply One; try discriminate; simpl.
                   --- exists r, b. rewrite Em. repeat (split; [auto; fail|]). exists [t1]. split; [exact Hts|]. right. eauto.
                   --- exists r, b. auto.
                ** inversion E; subst. apply One; [|discriminate]. simpl. exists r, m.
                   repeat (split; [auto; fail|]). exists (t1 :: t2 :: ts). split; [exact Hts|]. simpl. lia.
          -- pose proof (find_alternate_spec url (r_links r)) as FA.
             destruct (find_alternate url (r_links r)) as [u'|].
             ++ destruct (load_loop fuel max (S k) u') as [o' t'] eqn:E'. inversion E; subst o t.
                apply IH in E'; [|lia|lia]. destruct E' as (L' & H0 & C & F).
                assert (RD : redirects r url u').
                { split; [exact S200|]. split; [exact FC|]. exact FA. }
                split; [cbn [length] in *; lia|]. split; [simpl; congruence|]. destruct t' as [|u1 t'].
                ** destruct F as [-> Fk]. split; [exact I|]. split; [cbn [length] in *; lia|].
                   exists url. split; [reflexivity|]. simpl. exists r, u'.
                   replace (k + 1 - 1) with k by lia. auto.
                ** split.
                   --- split; [|exact C]. exists r. rewrite <- (H0 u1 eq_refl) in RD. auto.
                   --- destruct F as (FT & u & Eu & Fu). split.
                       +++ intro Eo. specialize (FT Eo). change (length (url :: u1 :: t')) with (S (length (u1 :: t'))). lia.
                       +++ exists u. split; [simpl in *; rewrite Nat.sub_0_r in *; exact Eu|].
                           change (length (url :: u1 :: t')) with (S (length (u1 :: t'))).
                           replace (k + S (length (u1 :: t')) - 1) with (S k + length (u1 :: t') - 1) by lia.
                           exact Fu.
             ++ inversion E; subst. apply One; [|discriminate]. simpl. exists r. auto.
        * inversion E; subst. apply One; [|discriminate]. simpl. eauto.
      + inversion E; subst. apply One; [|discriminate]. left. exact Es.
  Qed.
End Reqwest.

(** ** Chained loaders *)
Section Chain.
  Variables url doc cause : Type.

  (** A nest of [ChainLoader]s over basic loaders. *)
  Inductive loader : Type :=
  | Basic (id : nat)
  | Chain (l1 l2 : loader).

  (** The answers of the basic loaders. *)
  Variable basic : nat -> url -> result doc cause.
  (** chain.rs 43 ([Error]): the two causes are combined. *)
  Variable both : cause -> cause -> cause.

  (** chain.rs 30-39 ([ChainLoader::load]); also records which basic loaders are called. *)
  Fixpoint chain_load (l : loader) (u : url) : result doc cause * list nat :=
    match l with
    | Basic i => (basic i u, [i])
    | Chain l1 l2 =>
        match chain_load l1 u with
        | (Ok d, t1) => (Ok d, t1)
        | (Err e1, t1) =>
            match chain_load l2 u with
            | (Ok d, t2) => (Ok d, t1 ++ t2)
            | (Err e2, t2) => (Err (both e1 e2), t1 ++ t2)
            end
        end
    end.

  (** Specification: the basic loaders in order. *)
  Fixpoint basics (l : loader) : list nat :=
    match l with
    | Basic i => [i]
    | Chain l1 l2 => basics l1 ++ basics l2
    end.

  Definition fails (u : url) (i : nat) : Prop := exists e, basic i u = Err e.

  Lemma chain_load_spec l u :
    match chain_load l u with
    | (Ok d, t) => exists p i q, basics l = p ++ i :: q /\ t = p ++ [i] /\
                     basic i u = Ok d /\ Forall (fails u) p
    | (Err e, t) => t = basics l /\ Forall (fails u) (basics l)
    end.
  Proof.
    induction l as [i|l1 IH1 l2 IH2]; simpl.
    - destruct (basic i u) as [d|e] eqn:E.
      + exists [], i, []. auto.
      + split; [reflexivity|]. repeat constructor. exists e. exact E.
    - destruct (chain_load l1 u) as [[d|e1] t1].
      + destruct IH1 as (p & i & q & -> & -> & E & F). exists p, i, (q ++ basics l2).
        rewrite <- app_assoc. simpl. auto.
      + destruct IH1 as [-> F1]. destruct (chain_load l2 u) as [[d|e2] t2].
        * destruct IH2 as (p & i & q & -> & -> & E & F). exists (basics l1 ++ p), i, q.
          rewrite <- !app_assoc. split; [reflexivity|]. split; [reflexivity|]. split; [exact E|].
          apply Forall_app. auto.
        * destruct IH2 as [-> F2]. split; [reflexivity|]. apply Forall_app. auto.
  Qed.
End Chain.

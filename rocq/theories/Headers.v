(** Model of crates/core/src/loader/reqwest/link.rs and content_type.rs. *)
From Verif Require Import Prelude.

Definition snoc (s : string) (c : ascii) : string := String.append s (String c "").
Infix "+++" := String.append (at level 60, right associativity).

(** The parameters of a header.  The [HashMap] of the code is represented by the list of
    its insertions, most recent first; it is only observed through lookups ([assoc]). *)
Definition params := list (string * string).

(** ** Link (link.rs) *)

(** link.rs 12-20 (enum [State]). *)
Inductive lstate : Type := LBeginHref | LHref | LNextParam | LBeginKey | LKey | LBeginValue | LValue.

Section Link.
  (** [IriRefBuf::from_vec] of the external crate [iref]: which byte strings are IRI references. *)
  Variable iri_ref_ok : string -> bool.

  (** link.rs 22-82: the main loop, one byte per iteration. *)
  Fixpoint link_loop (st : lstate) (href key value : string) (ps : params) (s : string)
    : option (string * params) :=
    match st, s with
    | LBeginHref, String c s' =>
        if Ascii.eqb c "<" then link_loop LHref href key value ps s' else None
    | LBeginHref, EmptyString => None
    | LHref, String c s' =>
        if Ascii.eqb c ">" then link_loop LNextParam href key value ps s'
        else link_loop LHref (snoc href c) key value ps s'
    | LHref, EmptyString => None
    | LNextParam, String c s' =>
        if Ascii.eqb c ";" then link_loop LBeginKey href key value ps s' else None
    | LNextParam, EmptyString => if iri_ref_ok href then Some (href, ps) else None
    | LBeginKey, String c s' =>
        if Ascii.eqb c " " then link_loop LBeginKey href key value ps s'
        else link_loop LKey href (snoc key c) value ps s'
    | LBeginKey, EmptyString => None
    | LKey, String c s' =>
        if Ascii.eqb c "=" then link_loop LBeginValue href key value ps s'
        else link_loop LKey href (snoc key c) value ps s'
    | LKey, EmptyString => None
    | LBeginValue, String c s' =>
        if Ascii.eqb c """" then link_loop LValue href key value ps s' else None
    | LBeginValue, EmptyString => None
    | LValue, String c s' =>
        if Ascii.eqb c """" then link_loop LNextParam href "" "" ((key, value) :: ps) s'
        else link_loop LValue href key (snoc value c) ps s'
    | LValue, EmptyString => None
    end.

  (** link.rs 11-83 ([Link::new]). *)
  Definition link_new (s : string) : option (string * params) :=
    link_loop LBeginHref "" "" "" [] s.
End Link.

(** link.rs 89-95 ([rel], [type_]). *)
Definition link_rel (l : string * params) : option string := assoc "rel" (snd l).
Definition link_type (l : string * params) : option string := assoc "type" (snd l).

(** ** Content-Type (content_type.rs) *)

(** content_type.rs 14-22 (enum [State]). *)
Inductive cstate : Type := CTMime | CTNextParam | CTBeginKey | CTKey | CTBeginValue | CTQuotedValue | CTValue.

(** content_type.rs 24-98: the main loop; the media type text and the parameters. *)
Fixpoint ct_loop (st : cstate) (mime key value : string) (ps : params) (s : string)
  : option (string * params) :=
  match st, s with
  | CTMime, String c s' =>
      if Ascii.eqb c ";" then ct_loop CTBeginKey mime key value ps s'
      else ct_loop CTMime (snoc mime c) key value ps s'
  | CTMime, EmptyString => Some (mime, ps)
  | CTNextParam, String c s' =>
      if Ascii.eqb c ";" then ct_loop CTBeginKey mime key value ps s' else None
  | CTNextParam, EmptyString => Some (mime, ps)
  | CTBeginKey, String c s' =>
      if Ascii.eqb c " " then ct_loop CTBeginKey mime key value ps s'
      else ct_loop CTKey mime (snoc key c) value ps s'
  | CTBeginKey, EmptyString => None
  | CTKey, String c s' =>
      if Ascii.eqb c "=" then ct_loop CTBeginValue mime key value ps s'
      else ct_loop CTKey mime (snoc key c) value ps s'
  | CTKey, EmptyString => None
  | CTBeginValue, String c s' =>
      if Ascii.eqb c """" then ct_loop CTQuotedValue mime key value ps s'
      else ct_loop CTValue mime key (snoc value c) ps s'
  | CTBeginValue, EmptyString => None
  | CTQuotedValue, String c s' =>
      if Ascii.eqb c """" then ct_loop CTNextParam mime "" "" ((key, value) :: ps) s'
      else ct_loop CTQuotedValue mime key (snoc value c) ps s'
  | CTQuotedValue, EmptyString => None
  | CTValue, String c s' =>
      if Ascii.eqb c ";" then ct_loop CTBeginKey mime "" "" ((key, value) :: ps) s'
      else ct_loop CTValue mime key (snoc value c) ps s'
  | CTValue, EmptyString => Some (mime, (key, value) :: ps)
  end.

Section ContentType.
  (** [Mime::from_str] of the external crate [mime] (after UTF-8 validation). *)
  Variable mime : Type.
  Variable mime_parse : string -> option mime.

  (** content_type.rs 13-105 ([ContentType::new]). *)
  Definition content_type_new (s : string) : option (mime * params) :=
    match ct_loop CTMime "" "" "" [] s with
    | Some (m, ps) => match mime_parse m with Some t => Some (t, ps) | None => None end
    | None => None
    end.
End ContentType.

(** ** Specification: the written forms *)
Fixpoint no_char (c : ascii) (s : string) : Prop :=
  match s with
  | EmptyString => True
  | String d s' => d <> c /\ no_char c s'
  end.

Fixpoint spaces (n : nat) : string := match n with 0 => "" | S n' => String " " (spaces n') end.

(** A parameter name: not empty, not starting with a space, and without ['='] after its
    first character. *)
Definition key_ok (k : string) : Prop :=
  match k with
  | EmptyString => False
  | String c k' => c <> " "%char /\ no_char "=" k'
  end.

(** A written parameter: leading spaces, name and value. *)
Record wparam : Type := MkWP { wp_spaces : nat; wp_key : string; wp_quoted : bool; wp_value : string }.

Definition wp_ok (p : wparam) : Prop :=
  key_ok (wp_key p) /\
  if wp_quoted p then no_char """" (wp_value p)
  else match wp_value p with
       | EmptyString => False
       | String c v => c <> """"%char /\ no_char ";" v
       end.

Definition wp_print (p : wparam) : string :=
  ";" +++ spaces (wp_spaces p) +++ wp_key p +++ "=" +++
  if wp_quoted p then """" +++ wp_value p +++ """" else wp_value p.

Fixpoint print_params (l : list wparam) : string :=
  match l with
  | [] => ""
  | p :: l' => wp_print p +++ print_params l'
  end.

Definition wp_pair (p : wparam) : string * string := (wp_key p, wp_value p).

(** The written form of a link: [<href>] followed by [;] name=["value"]. *)
Definition link_print (href : string) (l : list wparam) : string :=
  "<" +++ href +++ ">" +++ print_params l.

(** The value of a parameter is the one written last. *)
Definition last_value (k : string) (l : list wparam) : option string :=
  assoc k (map wp_pair (rev l)).

(** ** Proofs *)
Lemma app_snoc a c b : snoc a c +++ b = a +++ String c b.
Proof. unfold snoc. induction a as [|x a IH]; simpl; [reflexivity|]. rewrite IH. reflexivity. Qed.

Lemma app_assoc_s a b c : (a +++ b) +++ c = a +++ b +++ c.
Proof. induction a as [|x a IH]; simpl; [reflexivity|]. rewrite IH. reflexivity. Qed.

Lemma app_nil_s a : a +++ "" = a.
Proof. induction a as [|x a IH]; simpl; [reflexivity|]. rewrite IH. reflexivity. Qed.

Lemma app_inj_l a b c : a +++ b = a +++ c -> b = c.
Proof. induction a; simpl; intro H; [exact H|]. inversion H. auto. Qed.

Section LinkProofs.
  Variable iri_ref_ok : string -> bool.
  Notation loop := (link_loop iri_ref_ok).

  Lemma loop_href h r href key value ps :
    no_char ">" h -> loop LHref href key value ps (h +++ ">" +++ r) = loop LNextParam (href +++ h) key value ps r.
  Proof.
    revert href. induction h as [|c h IH]; intros href H; simpl.
    - rewrite app_nil_s. reflexivity.
    - destruct H as [N H]. destruct (Ascii.eqb_spec c ">"); [contradiction|].
      change (h +++ String ">" r) with (h +++ ">" +++ r). rewrite IH by exact H. rewrite app_snoc. reflexivity.
  Qed.

  Lemma loop_spaces n r href key value ps :
    loop LBeginKey href key value ps (spaces n +++ r) = loop LBeginKey href key value ps r.
  Proof. induction n as [|n IH]; simpl; [reflexivity|]. exact IH. Qed.

  Lemma loop_key k r href key value ps :
    no_char "=" k -> loop LKey href key value ps (k +++ "=" +++ r) = loop LBeginValue href (key +++ k) value ps r.
  Proof.
    revert key. induction k as [|c k IH]; intros key H; simpl.
    - rewrite app_nil_s. reflexivity.
    - destruct H as [N H]. destruct (Ascii.eqb_spec c "="); [contradiction|].
      change (k +++ String "=" r) with (k +++ "=" +++ r). rewrite IH by exact H. rewrite app_snoc. reflexivity.
  Qed.

  Lemma loop_value v r href key value ps :
    no_char """" v ->
    loop LValue href key value ps (v +++ """" +++ r) = loop LNextParam href "" "" ((key, value +++ v) :: ps) r.
  Proof.
    revert value. induction v as [|c v IH]; intros value H; simpl.
    - rewrite app_nil_s. reflexivity.
    - destruct H as [N H]. destruct (Ascii.eqb_spec c """"); [contradiction|].
      change (v +++ String """" r) with (v +++ """" +++ r). rewrite IH by exact H. rewrite app_snoc. reflexivity.
  Qed.

  Lemma loop_params l href ps :
    Forall (fun p => wp_ok p /\ wp_quoted p = true) l ->
    loop LNextParam href "" "" ps (print_params l) =
    if iri_ref_ok href then Some (href, rev (map wp_pair l) ++ ps) else None.
  Proof.
    revert ps. induction l as [|p l IH]; intros ps H; [reflexivity|].
    inversion H as [|? ? [[Hk Hv] Hq] Hl]; subst. simpl. unfold wp_print. rewrite Hq in *.
    rewrite !app_assoc_s. simpl. rewrite loop_spaces.
    destruct (wp_key p) as [|c k] eqn:Ek; [destruct Hk|]. destruct Hk as [Nc Hk]. simpl.
    destruct (Ascii.eqb_spec c " "); [contradiction|].
    match goal with |- context [k +++ String "=" ?r] => change (k +++ String "=" r) with (k +++ "=" +++ r) end.
    rewrite loop_key by exact Hk. simpl. rewrite !app_assoc_s.
    rewrite loop_value by exact Hv. simpl. rewrite IH by exact Hl.
    rewrite <- app_assoc. unfold wp_pair at 3. rewrite Ek. reflexivity.
  Qed.

  Lemma link_complete h l :
    no_char ">" h -> iri_ref_ok h = true -> Forall (fun p => wp_ok p /\ wp_quoted p = true) l ->
    link_new iri_ref_ok (link_print h l) = Some (h, map wp_pair (rev l)).
  Proof.
    intros Hh Hi Hl. unfold link_new, link_print. simpl.
    match goal with |- context [h +++ String ">" ?r] => change (h +++ String ">" r) with (h +++ ">" +++ r) end.
    rewrite loop_href by exact Hh. simpl. rewrite loop_params by exact Hl. rewrite Hi.
    rewrite app_nil_r, map_rev. reflexivity.
  Qed.

  (** Soundness: what is left to read in each state. *)
  Definition linv (st : lstate) (href key value : string) (ps : params) (s : string)
                  (h : string) (out : params) : Prop :=
    match st with
    | LBeginHref => exists t l, s = "<" +++ t +++ ">" +++ print_params l /\ no_char ">" t /\
        h = href +++ t /\ Forall (fun p => wp_ok p /\ wp_quoted p = true) l /\ out = rev (map wp_pair l) ++ ps
    | LHref => exists t l, s = t +++ ">" +++ print_params l /\ no_char ">" t /\
        h = href +++ t /\ Forall (fun p => wp_ok p /\ wp_quoted p = true) l /\ out = rev (map wp_pair l) ++ ps
    | LNextParam => exists l, s = print_params l /\ h = href /\
        Forall (fun p => wp_ok p /\ wp_quoted p = true) l /\ out = rev (map wp_pair l) ++ ps
    | LBeginKey => exists n k v l, s = spaces n +++ k +++ "=" +++ """" +++ v +++ """" +++ print_params l /\
        key_ok k /\ no_char """" v /\ h = href /\
        Forall (fun p => wp_ok p /\ wp_quoted p = true) l /\ out = rev (map wp_pair l) ++ (key +++ k, value +++ v) :: ps
    | LKey => exists k v l, s = k +++ "=" +++ """" +++ v +++ """" +++ print_params l /\
        no_char "=" k /\ no_char """" v /\ h = href /\
        Forall (fun p => wp_ok p /\ wp_quoted p = true) l /\ out = rev (map wp_pair l) ++ (key +++ k, value +++ v) :: ps
    | LBeginValue => exists v l, s = """" +++ v +++ """" +++ print_params l /\
        no_char """" v /\ h = href /\
        Forall (fun p => wp_ok p /\ wp_quoted p = true) l /\ out = rev (map wp_pair l) ++ (key, value +++ v) :: ps
    | LValue => exists v l, s = v +++ """" +++ print_params l /\
        no_char """" v /\ h = href /\
        Forall (fun p => wp_ok p /\ wp_quoted p = true) l /\ out = rev (map wp_pair l) ++ (key, value +++ v) :: ps
    end.

  Lemma loop_sound s : forall st href key value ps h out,
    (st = LBeginHref \/ st = LHref \/ st = LNextParam -> key = "" /\ value = "") ->
    (st = LBeginKey -> key = "" /\ value = "") ->
    loop st href key value ps s = Some (h, out) ->
    iri_ref_ok h = true /\ linv st href key value ps s h out.
  Proof.
    induction s as [|c s IH]; intros st href key value ps h out K1 K2 E;
      destruct st; simpl in E; try discriminate.
    - destruct (iri_ref_ok href) eqn:Ei; inversion E; subst. split; [exact Ei|].
      exists []. repeat split. constructor.
    - destruct (Ascii.eqb_spec c "<") as [->|]; [|discriminate].
      apply IH in E; [|intros _; apply K1; tauto|discriminate].
      destruct E as (Ei & t & l & -> & Ht & -> & Hl & ->). split; [exact Ei|]. exists t, l. auto.
    - destruct (Ascii.eqb_spec c ">") as [->|N].
      + apply IH in E; [|intros _; apply K1; tauto|discriminate].
        destruct E as (Ei & l & -> & -> & Hl & ->). split; [exact Ei|]. exists "", l.
        rewrite app_nil_s. simpl. auto.
      + apply IH in E; [|intros _; apply K1; tauto|discriminate].
        destruct E as (Ei & t & l & -> & Ht & -> & Hl & ->). split; [exact Ei|].
        exists (String c t), l. rewrite app_snoc. simpl. auto.
    - destruct (Ascii.eqb_spec c ";") as [->|]; [|discriminate].
      destruct K1 as [-> ->]; [tauto|].
      apply IH in E; [|intros [?|[?|?]]; discriminate|auto].
      destruct E as (Ei & n & k & v & l & -> & Hk & Hv & -> & Hl & ->). split; [exact Ei|].
      exists (MkWP n k true v :: l). simpl. unfold wp_print. simpl. rewrite !app_assoc_s. simpl.
      rewrite !app_assoc_s. simpl.
      split; [reflexivity|]. split; [reflexivity|]. split.
      + constructor; [|exact Hl]. split; [split|]; simpl; auto.
      + rewrite <- app_assoc. reflexivity.
    - destruct K2 as [-> ->]; [reflexivity|].
      destruct (Ascii.eqb_spec c " ") as [->|N].
      + apply IH in E; [|intros [?|[?|?]]; discriminate|auto].
        destruct E as (Ei & n & k & v & l & -> & Hk & Hv & -> & Hl & ->). split; [exact Ei|].
        exists (S n), k, v, l. simpl. auto 10.
      + apply IH in E; [|intros [?|[?|?]]; discriminate|discriminate].
        destruct E as (Ei & k & v & l & -> & Hk & Hv & -> & Hl & ->). split; [exact Ei|].
        exists 0, (String c k), v, l. simpl. auto 10.
    - destruct (Ascii.eqb_spec c "=") as [->|N].
      + apply IH in E; [|intros [?|[?|?]]; discriminate|discriminate].
        destruct E as (Ei & v & l & -> & Hv & -> & Hl & ->). split; [exact Ei|].
        exists "", v, l. rewrite app_nil_s. simpl. auto 10.
      + apply IH in E; [|intros [?|[?|?]]; discriminate|discriminate].
        destruct E as (Ei & k & v & l & -> & Hk & Hv & -> & Hl & ->). split; [exact Ei|].
        exists (String c k), v, l. rewrite app_snoc. simpl. auto 10.
    - destruct (Ascii.eqb_spec c """") as [->|N]; [|discriminate].
      apply IH in E; [|intros [?|[?|?]]; discriminate|discriminate].
      destruct E as (Ei & v & l & -> & Hv & -> & Hl & ->). split; [exact Ei|].
      exists v, l. simpl. auto 10.
    - destruct (Ascii.eqb_spec c """") as [->|N].
      + apply IH in E; [|auto|discriminate].
        destruct E as (Ei & l & -> & -> & Hl & ->). split; [exact Ei|].
        exists "", l. rewrite app_nil_s. simpl. auto 10.
      + apply IH in E; [|intros [?|[?|?]]; discriminate|discriminate].
        destruct E as (Ei & v & l & -> & Hv & -> & Hl & ->). split; [exact Ei|].
        exists (String c v), l. rewrite app_snoc. simpl. auto 10.
  Qed.

  Lemma link_sound s h ps :
    link_new iri_ref_ok s = Some (h, ps) ->
    iri_ref_ok h = true /\ no_char ">" h /\
    exists l, s = link_print h l /\ Forall (fun p => wp_ok p /\ wp_quoted p = true) l /\ ps = map wp_pair (rev l).
  Proof.
    intro E. apply loop_sound in E; [|auto|discriminate].
    destruct E as (Ei & t & l & -> & Ht & -> & Hl & ->). simpl in *.
    split; [exact Ei|]. split; [exact Ht|]. exists l. rewrite app_nil_r, map_rev. auto.
  Qed.
End LinkProofs.

Lemma ct_mime h r mime ps :
  no_char ";" h -> ct_loop CTMime mime "" "" ps (h +++ r) =
  ct_loop CTMime (mime +++ h) "" "" ps r.
Proof.
  revert mime. induction h as [|c h IH]; intros mime H; simpl.
  - rewrite app_nil_s. reflexivity.
  - destruct H as [N H]. destruct (Ascii.eqb_spec c ";"); [contradiction|].
    rewrite IH by exact H. rewrite app_snoc. reflexivity.
Qed.

Lemma ct_spaces n r mime key value ps :
  ct_loop CTBeginKey mime key value ps (spaces n +++ r) = ct_loop CTBeginKey mime key value ps r.
Proof. induction n as [|n IH]; simpl; [reflexivity|]. exact IH. Qed.

Lemma ct_key k r mime key value ps :
  no_char "=" k -> ct_loop CTKey mime key value ps (k +++ "=" +++ r) = ct_loop CTBeginValue mime (key +++ k) value ps r.
Proof.
  revert key. induction k as [|c k IH]; intros key H; simpl.
  - rewrite app_nil_s. reflexivity.
  - destruct H as [N H]. destruct (Ascii.eqb_spec c "="); [contradiction|].
    change (k +++ String "=" r) with (k +++ "=" +++ r). rewrite IH by exact H. rewrite app_snoc. reflexivity.
Qed.

Lemma ct_qvalue v r mime key value ps :
  no_char """" v ->
  ct_loop CTQuotedValue mime key value ps (v +++ """" +++ r) = ct_loop CTNextParam mime "" "" ((key, value +++ v) :: ps) r.
Proof.
  revert value. induction v as [|c v IH]; intros value H; simpl.
  - rewrite app_nil_s. reflexivity.
  - destruct H as [N H]. destruct (Ascii.eqb_spec c """"); [contradiction|].
    change (v +++ String """" r) with (v +++ """" +++ r). rewrite IH by exact H. rewrite app_snoc. reflexivity.
Qed.

Lemma ct_value v r mime key value ps :
  no_char ";" v ->
  ct_loop CTValue mime key value ps (v +++ r) = ct_loop CTValue mime key (value +++ v) ps r.
Proof.
  revert value. induction v as [|c v IH]; intros value H; simpl.
  - rewrite app_nil_s. reflexivity.
  - destruct H as [N H]. destruct (Ascii.eqb_spec c ";"); [contradiction|].
    rewrite IH by exact H. rewrite app_snoc. reflexivity.
Qed.

(** Where the loop stands between two parameters. *)
Definition ct_between (st : cstate) (mime key value : string) (ps : params) (done : params) : Prop :=
  match st with
  | CTMime | CTNextParam => key = "" /\ value = "" /\ done = ps
  | CTValue => done = (key, value) :: ps
  | _ => False
  end.

Lemma ct_begin st mime key value ps done r :
  ct_between st mime key value ps done ->
  ct_loop st mime key value ps (";" +++ r) = ct_loop CTBeginKey mime "" "" done r.
Proof.
  destruct st; simpl; intro H; try contradiction.
  - destruct H as (-> & -> & ->). reflexivity.
  - destruct H as (-> & -> & ->). reflexivity.
  - subst. reflexivity.
Qed.

Lemma ct_params l : forall st mime key value ps done,
  ct_between st mime key value ps done ->
  Forall wp_ok l ->
  ct_loop st mime key value ps (print_params l) = Some (mime, rev (map wp_pair l) ++ done).
Proof.
  induction l as [|p l IH]; intros st mime key value ps done B H.
  - destruct st; simpl in *; try contradiction.
    + destruct B as (-> & -> & ->). reflexivity.
    + destruct B as (-> & -> & ->). reflexivity.
    + subst. reflexivity.
  - inversion H as [|? ? [Hk Hv] Hl]; subst. change (print_params (p :: l)) with (wp_print p +++ print_params l). unfold wp_print.
    rewrite !app_assoc_s. rewrite (ct_begin _ _ _ _ _ _ _ B). rewrite ct_spaces.
    assert (Ep : rev (map wp_pair (p :: l)) ++ done = rev (map wp_pair l) ++ (wp_key p, wp_value p) :: done).
    { simpl. rewrite <- app_assoc. reflexivity. }
    rewrite Ep. clear Ep.
    destruct (wp_key p) as [|c k]; [destruct Hk|]. destruct Hk as [Nc Hk]. simpl.
    destruct (Ascii.eqb_spec c " "); [contradiction|].
    match goal with |- context [k +++ String "=" ?r] => change (k +++ String "=" r) with (k +++ "=" +++ r) end.
    rewrite ct_key by exact Hk. destruct (wp_quoted p).
    + simpl. rewrite !app_assoc_s. rewrite ct_qvalue by exact Hv. apply IH; [|exact Hl]. simpl. auto.
    + destruct (wp_value p) as [|d v]; [destruct Hv|]. destruct Hv as [Nd Hv]. simpl.
      destruct (Ascii.eqb_spec d """"); [contradiction|].
      rewrite ct_value by exact Hv. apply IH; [|exact Hl]. reflexivity.
Qed.

Lemma ct_complete m l : no_char ";" m -> Forall wp_ok l ->
  ct_loop CTMime "" "" "" [] (m +++ print_params l) = Some (m, map wp_pair (rev l)).
Proof.
  intros Hm Hl. rewrite ct_mime by exact Hm. simpl (EmptyString +++ m).
  rewrite (ct_params l _ _ _ _ _ []); [|simpl; auto|exact Hl]. rewrite app_nil_r, map_rev. reflexivity.
Qed.

Definition cinv (st : cstate) (mime key value : string) (ps : params) (s : string)
                (m : string) (out : params) : Prop :=
  match st with
  | CTMime => exists t l, s = t +++ print_params l /\ no_char ";" t /\ m = mime +++ t /\
      Forall wp_ok l /\ out = rev (map wp_pair l) ++ ps
  | CTNextParam => exists l, s = print_params l /\ m = mime /\ Forall wp_ok l /\ out = rev (map wp_pair l) ++ ps
  | CTBeginKey => exists n k q v l, s = spaces n +++ k +++ "=" +++ (if (q : bool) then """" +++ v +++ """" else v) +++ print_params l /\
      wp_ok (MkWP n k q v) /\ m = mime /\ Forall wp_ok l /\ out = rev (map wp_pair l) ++ (key +++ k, value +++ v) :: ps
  | CTKey => exists k q v l, s = k +++ "=" +++ (if (q : bool) then """" +++ v +++ """" else v) +++ print_params l /\
      no_char "=" k /\ wp_ok (MkWP 0 "k" q v) /\ m = mime /\ Forall wp_ok l /\ out = rev (map wp_pair l) ++ (key +++ k, value +++ v) :: ps
  | CTBeginValue => exists q v l, s = (if (q : bool) then """" +++ v +++ """" else v) +++ print_params l /\
      wp_ok (MkWP 0 "k" q v) /\ m = mime /\ Forall wp_ok l /\ out = rev (map wp_pair l) ++ (key, value +++ v) :: ps
  | CTQuotedValue => exists v l, s = v +++ """" +++ print_params l /\
      no_char """" v /\ m = mime /\ Forall wp_ok l /\ out = rev (map wp_pair l) ++ (key, value +++ v) :: ps
  | CTValue => exists v l, s = v +++ print_params l /\
      no_char ";" v /\ m = mime /\ Forall wp_ok l /\ out = rev (map wp_pair l) ++ (key, value +++ v) :: ps
  end.

Definition ct_clean (st : cstate) : bool :=
  match st with CTMime | CTNextParam | CTBeginKey => true | _ => false end.

Lemma begin_key_params mime ps s m out :
  cinv CTBeginKey mime "" "" ps s m out ->
  exists l, String ";" s = print_params l /\ m = mime /\ Forall wp_ok l /\ out = rev (map wp_pair l) ++ ps.
Proof.
  intros (n & k & q & v & l & -> & Hp & -> & Hl & ->).
  exists (MkWP n k q v :: l). simpl. unfold wp_print. simpl. rewrite !app_assoc_s.
  split; [|split; [reflexivity|split; [constructor; assumption|rewrite <- app_assoc; reflexivity]]].
  destruct q; simpl; rewrite ?app_assoc_s; reflexivity.
Qed.

Lemma ct_sound s : forall st mime key value ps m out,
  (ct_clean st = true -> key = "" /\ value = "") ->
  ct_loop st mime key value ps s = Some (m, out) ->
  cinv st mime key value ps s m out.
Proof.
  induction s as [|c s IH]; intros st mime key value ps m out K E;
    destruct st; simpl in E; try discriminate.
  - inversion E; subst. exists "", []. simpl. rewrite app_nil_s. repeat split; constructor.
  - inversion E; subst. exists []. simpl. repeat split; constructor.
  - inversion E; subst. exists "", []. simpl. rewrite app_nil_s. repeat split; constructor.
  - destruct K as [-> ->]; [reflexivity|]. destruct (Ascii.eqb_spec c ";") as [->|N].
    + apply IH in E; [|auto]. apply begin_key_params in E. destruct E as (l & El & -> & Hl & ->).
      exists "", l. rewrite app_nil_s. simpl. auto 10.
    + apply IH in E; [|auto]. destruct E as (t & l & -> & Ht & -> & Hl & ->).
      exists (String c t), l. rewrite app_snoc. simpl. auto 10.
  - destruct K as [-> ->]; [reflexivity|]. destruct (Ascii.eqb_spec c ";") as [->|N]; [|discriminate].
    apply IH in E; [|auto]. apply begin_key_params in E. destruct E as (l & El & -> & Hl & ->).
    exists l. auto 10.
  - destruct K as [-> ->]; [reflexivity|]. destruct (Ascii.eqb_spec c " ") as [->|N].
    + apply IH in E; [|auto]. destruct E as (n & k & q & v & l & -> & Hp & -> & Hl & ->).
      exists (S n), k, q, v, l. simpl. auto 10.
    + apply IH in E; [|discriminate]. destruct E as (k & q & v & l & -> & Hk & Hp & -> & Hl & ->).
      exists 0, (String c k), q, v, l. simpl. split; [reflexivity|].
      split; [|auto]. split; [split; assumption|apply Hp].
  - destruct (Ascii.eqb_spec c "=") as [->|N].
    + apply IH in E; [|discriminate]. destruct E as (q & v & l & -> & Hp & -> & Hl & ->).
      exists "", q, v, l. rewrite app_nil_s. simpl. auto 10.
    + apply IH in E; [|discriminate]. destruct E as (k & q & v & l & -> & Hk & Hp & -> & Hl & ->).
      exists (String c k), q, v, l. rewrite app_snoc. simpl. auto 10.
  - destruct (Ascii.eqb_spec c """") as [->|N].
    + apply IH in E; [|discriminate]. destruct E as (v & l & -> & Hv & -> & Hl & ->).
      exists true, v, l. simpl. rewrite app_assoc_s. split; [reflexivity|].
      split; [|auto]. split; [simpl; split; [discriminate|exact I]|exact Hv].
    + apply IH in E; [|discriminate]. destruct E as (v & l & -> & Hv & -> & Hl & ->).
      exists false, (String c v), l. rewrite app_snoc. simpl. split; [reflexivity|].
      split; [|auto]. split; [simpl; split; [discriminate|exact I]|split; assumption].
  - destruct (Ascii.eqb_spec c """") as [->|N].
    + apply IH in E; [|auto]. destruct E as (l & -> & -> & Hl & ->).
      exists "", l. rewrite app_nil_s. simpl. auto 10.
    + apply IH in E; [|discriminate]. destruct E as (v & l & -> & Hv & -> & Hl & ->).
      exists (String c v), l. rewrite app_snoc. simpl. auto 10.
  - destruct (Ascii.eqb_spec c ";") as [->|N].
    + apply IH in E; [|auto]. apply begin_key_params in E. destruct E as (l & El & -> & Hl & ->).
      exists "", l. rewrite app_nil_s. simpl. auto 10.
    + apply IH in E; [|discriminate]. destruct E as (v & l & -> & Hv & -> & Hl & ->).
      exists (String c v), l. rewrite app_snoc. simpl. auto 10.
Qed.

Lemma ct_loop_iff s m ps :
  ct_loop CTMime "" "" "" [] s = Some (m, ps) <->
  exists l, s = m +++ print_params l /\ no_char ";" m /\ Forall wp_ok l /\ ps = map wp_pair (rev l).
Proof.
  split.
  - intro E. apply ct_sound in E; [|auto]. destruct E as (t & l & -> & Ht & -> & Hl & ->).
    exists l. rewrite app_nil_r, map_rev. auto.
  - intros (l & -> & Hm & Hl & ->). apply ct_complete; assumption.
Qed.

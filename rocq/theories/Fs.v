(** Model of crates/core/src/loader/fs.rs ([FsLoader]). *)
From Verif Require Import Prelude Str.

(** [std::path::PathBuf::push] on Unix: an absolute path replaces the current one, and a separator is added unless the
    path is empty or ends with one. *)
Definition ends_with_slash (p : string) : bool := match last_char p with Some c => Ascii.eqb c "/" | None => false end.
Definition path_push (p s : string) : string :=
  if starts_with "/" s then s
  else if streq p "" || ends_with_slash p then p +++ s
  else p +++ "/" +++ s.

(** fs.rs 11-24 ([Error]). *)
Inductive fs_error : Type := FsNoMountPoint | FsIO | FsParse.

(** loader/mod.rs 155-178 ([RemoteDocument]), without the profile, which stays empty. *)
Record fs_document (document : Type) : Type := MkFsDoc {
  fd_url : option string; fd_content_type : option string; fd_context_url : option string; fd_document : document }.
Arguments MkFsDoc {document}.
Arguments fd_url {document}.
Arguments fd_content_type {document}.
Arguments fd_context_url {document}.
Arguments fd_document {document}.

Section Fs.
(** iref: [IriRef::suffix]: the IRI, then the prefix; the segments of the path that remains, when the prefix matches. *)
Variable suffix : string -> string -> option (list string).
(** The file system: the text of a file ([File::open] and [read_to_string]). *)
Variable read : string -> option string.
(** [json_syntax::Value::parse_str]. *)
Variable document : Type.
Variable parse : string -> option document.

(** fs.rs 33-35: the mount points, directory first. *)
Definition mounts : Type := list (string * string).
(** fs.rs 48-50 ([mount]). *)
Definition mount (m : mounts) (url path : string) : mounts := m ++ [(path, url)].

(** fs.rs 53-66 ([filepath]). *)
Fixpoint filepath (m : mounts) (url : string) : option string :=
  match m with
  | [] => None
  | (path, target) :: m' =>
      match suffix url target with
      | Some segs => Some (fold_left path_push segs path)
      | None => filepath m' url
      end
  end.

(** fs.rs 70-91 ([load]); the URL carried by the errors is the requested one and is left out. *)
Definition fs_load (m : mounts) (url : string) : result (fs_document document) fs_error :=
  match filepath m url with
  | Some f =>
      match read f with
      | None => Err FsIO
      | Some text =>
          match parse text with
          | None => Err FsParse
          | Some d => Ok (MkFsDoc (Some url) (Some "application/ld+json") None d)
          end
      end
  | None => Err FsNoMountPoint
  end.
End Fs.

(** ** Specification *)

(** The parts of a path between the slashes, and the names among them. *)
Fixpoint split_slash (s : string) : list string :=
  match s with
  | EmptyString => [""]
  | String c s' => if Ascii.eqb c "/" then "" :: split_slash s'
                   else match split_slash s' with x :: l => String c x :: l | [] => [String c ""] end
  end.
Definition is_name (s : string) : bool := negb (streq s "") && negb (streq s ".").
Definition names (p : string) : list string := filter is_name (split_slash p).
Definition absolute (p : string) : bool := starts_with "/" p.

(** The file [f] is reached from the directory [dir] by going down the names [l]. *)
Definition below (dir f : string) (l : list string) : Prop := names f = names dir ++ l /\ ~ In ".." l /\ (absolute dir = true -> absolute f = true).

(** The mount point that serves a URL: the first one that matches. *)
Definition served_by (suffix : string -> string -> option (list string)) (m : mounts) (url dir : string) (segs : list string) : Prop :=
  exists before target after, m = before ++ (dir, target) :: after /\ suffix url target = Some segs /\
    forall d t, In (d, t) before -> suffix url t = None.

(** What is expected of [iref]: the segments of a normalized path. *)
Definition segments_ok (suffix : string -> string -> option (list string)) : Prop :=
  forall url t l s, suffix url t = Some l -> In s l -> contains_char "/" s = false /\ s <> "..".

(** ** Proof *)
Lemma split_not_nil s : split_slash s <> [].
Proof. destruct s as [|c s]; cbn; [discriminate|]. destruct (Ascii.eqb c "/"); [discriminate|]. destruct (split_slash s); discriminate. Qed.
Lemma split_app a b : split_slash (a +++ "/" +++ b) = split_slash a ++ split_slash b.
Proof.
  induction a as [|c a IH]; cbn; [reflexivity|]. destruct (Ascii.eqb c "/").
  - cbn in IH. rewrite IH. reflexivity.
  - cbn in IH. rewrite IH. pose proof (split_not_nil a) as N. destruct (split_slash a) as [|x l]; [contradiction|]. reflexivity.
Qed.
Lemma split_parts s : forall x, In x (split_slash s) -> contains_char "/" x = false.
Proof.
  induction s as [|c s IH]; cbn [split_slash]; [intros x [<-|[]]; reflexivity|]. destruct (Ascii.eqb c "/") eqn:E.
  - intros x [<-|I]; [reflexivity|auto].
  - destruct (split_slash s) as [|y l].
    + intros x [<-|[]]. unfold contains_char. cbn. rewrite E. reflexivity.
    + intros x [<-|I]; [|apply IH; right; exact I]. specialize (IH y (or_introl eq_refl)). unfold contains_char in *. cbn. rewrite E. destruct (find_char "/" y); [discriminate|reflexivity].
Qed.
Lemma split_plain s : contains_char "/" s = false -> split_slash s = [s].
Proof.
  unfold contains_char. induction s as [|c s IH]; cbn; [reflexivity|]. destruct (Ascii.eqb c "/"); [discriminate|]. intros H. rewrite IH; [reflexivity|].
  destruct (find_char "/" s); [discriminate|reflexivity].
Qed.
Lemma names_app a b : names (a +++ "/" +++ b) = names a ++ names b.
Proof. unfold names. rewrite split_app, filter_app. reflexivity. Qed.
Lemma last_char_slash p : ends_with_slash p = true -> exists q, p = q +++ "/".
Proof.
  unfold ends_with_slash. induction p as [|c p IH]; [discriminate|]. destruct p as [|c' p].
  - cbn. destruct (Ascii.eqb_spec c "/") as [->|]; [exists ""; reflexivity|discriminate].
  - intros H. destruct (IH H) as (q & E). exists (String c q). rewrite E. reflexivity.
Qed.
Lemma plain_relative s : contains_char "/" s = false -> starts_with "/" s = false.
Proof.
  unfold contains_char, starts_with. destruct s as [|c s]; [reflexivity|]. cbn [strip_prefix find_char]. rewrite (Ascii.eqb_sym "/" c).
  destruct (Ascii.eqb c "/"); [discriminate|reflexivity].
Qed.
Lemma absolute_app a b : absolute a = true -> absolute (a +++ b) = true.
Proof. unfold absolute, starts_with. destruct a as [|c a]; [discriminate|]. cbn [strip_prefix String.append]. destruct (Ascii.eqb "/" c); [reflexivity|discriminate]. Qed.
Lemma push_names p s : contains_char "/" s = false -> names (path_push p s) = names p ++ names s /\ (absolute p = true -> absolute (path_push p s) = true).
Proof.
  intros H. unfold path_push. rewrite (plain_relative _ H). destruct (streq_spec p "") as [->|N]; cbn [orb].
  - split; [reflexivity|discriminate].
  - destruct (ends_with_slash p) eqn:E.
    + split; [|apply absolute_app]. destruct (last_char_slash _ E) as (q & ->). rewrite app_assoc_str, names_app. change (names (q +++ "/")) with (names (q +++ "/" +++ "")).
      rewrite names_app. cbn [names split_slash filter is_name streq]. rewrite app_nil_r. reflexivity.
    + split; [apply names_app|apply absolute_app].
Qed.
Lemma push_all l : forall p, (forall s, In s l -> contains_char "/" s = false) ->
  names (fold_left path_push l p) = names p ++ filter is_name l /\ (absolute p = true -> absolute (fold_left path_push l p) = true).
Proof.
  induction l as [|s l IH]; intros p H; cbn [fold_left]; [rewrite app_nil_r; auto|].
  destruct (push_names p s (H s (or_introl eq_refl))) as [E A]. destruct (IH (path_push p s) (fun x I => H x (or_intror I))) as [E' A'].
  split; [|auto]. rewrite E', E, <- app_assoc. f_equal. unfold names. rewrite (split_plain s) by (apply H; left; reflexivity). cbn [filter].
  destruct (is_name s); reflexivity.
Qed.
Lemma served suffix m url f : filepath suffix m url = Some f <-> exists dir segs, served_by suffix m url dir segs /\ f = fold_left path_push segs dir.
Proof.
  induction m as [|[d t] m IH]; cbn [filepath].
  - split; [discriminate|]. intros (dir & segs & (b & x & a & E & _) & _). destruct b; discriminate.
  - destruct (suffix url t) as [l|] eqn:S.
    + split.
      * intros [= <-]. exists d, l. split; [|reflexivity]. exists [], t, m. split; [reflexivity|]. split; [exact S|]. intros ? ? [].
      * intros (dir & segs & (b & x & a & E & X & B) & ->). destruct b as [|[d' t'] b].
        -- injection E as <- <- _. rewrite S in X. injection X as <-. reflexivity.
        -- injection E as <- <- _. rewrite (B d t (or_introl eq_refl)) in S. discriminate.
    + rewrite IH. split; intros (dir & segs & (b & x & a & E & X & B) & F); exists dir, segs; (split; [|exact F]).
      * exists ((d, t) :: b), x, a. rewrite E. split; [reflexivity|]. split; [exact X|]. intros d' t' [Y|Y]; [injection Y as <- <-; exact S|eauto].
      * destruct b as [|[d' t'] b]; [injection E as <- <- _; congruence|]. injection E as <- <- E. exists b, x, a. split; [exact E|]. split; [exact X|]. intros. eapply B. right. eassumption.
Qed.
Lemma unserved suffix m url : filepath suffix m url = None <-> forall d t, In (d, t) m -> suffix url t = None.
Proof.
  induction m as [|[d t] m IH]; cbn [filepath]; [split; [intros _ ? ? []|reflexivity]|]. destruct (suffix url t) as [l|] eqn:S.
  - split; [discriminate|]. intros H. rewrite (H d t (or_introl eq_refl)) in S. discriminate.
  - rewrite IH. split; [intros H d' t' [E|I]; [injection E as <- <-; exact S|eauto]|intros H d' t' I; apply (H d' t'); right; exact I].
Qed.
Lemma filepath_app suffix m m' url : filepath suffix (m ++ m') url = match filepath suffix m url with Some f => Some f | None => filepath suffix m' url end.
Proof. induction m as [|[d t] m IH]; cbn [filepath app]; [reflexivity|]. destruct (suffix url t); [reflexivity|exact IH]. Qed.

(** The file system loader: C98. *)
From Verif Require Import Prelude Str Fs.

(** ** C98 *)

(** The file that is read for a URL is the one reached from the directory of the first mount point that matches, by going
    down the segments of the rest of the URL: it is inside of this directory. *)
Theorem C98_inside : forall suffix m url f, segments_ok suffix -> filepath suffix m url = Some f ->
  exists dir segs, served_by suffix m url dir segs /\ below dir f (filter (fun s => negb (streq s "") && negb (streq s ".")) segs).
Proof.
  intros suffix m url f OK H. apply served in H. destruct H as (dir & segs & S & ->). exists dir, segs. split; [exact S|].
  destruct S as (b & t & a & _ & X & _). destruct (push_all segs dir) as [E A].
  - intros s I. apply (OK _ _ _ _ X I).
  - split; [exact E|]. split; [|exact A]. intros I. apply filter_In in I. destruct I as [I _]. destruct (OK _ _ _ _ X I) as [_ N]. contradiction.
Qed.
Print Assumptions C98_inside.

(** The answer: the document in this file, with the URL that was asked for, or the reason why there is none. *)
Theorem C98_answer : forall suffix read document (parse : string -> option document) m url,
  match fs_load suffix read document parse m url with
  | Ok r => fd_url r = Some url /\ fd_content_type r = Some "application/ld+json" /\ fd_context_url r = None /\
      exists dir segs text, served_by suffix m url dir segs /\ read (fold_left path_push segs dir) = Some text /\ parse text = Some (fd_document r)
  | Err FsNoMountPoint => forall dir target, In (dir, target) m -> suffix url target = None
  | Err FsIO => exists dir segs, served_by suffix m url dir segs /\ read (fold_left path_push segs dir) = None
  | Err FsParse => exists dir segs text, served_by suffix m url dir segs /\ read (fold_left path_push segs dir) = Some text /\ parse text = None
  end.
Proof.
  intros suffix read document parse m url. unfold fs_load. destruct (filepath suffix m url) as [f|] eqn:F; [|apply unserved, F].
  apply served in F. destruct F as (dir & segs & S & ->). destruct (read _) as [text|] eqn:R; [|exists dir, segs; auto].
  destruct (parse text) as [d|] eqn:P; [|exists dir, segs, text; auto]. cbn. repeat (split; [reflexivity|]). exists dir, segs, text. auto.
Qed.
Print Assumptions C98_answer.

(** Mounting one more directory changes nothing for the URLs already served, and does not hide it from the others. *)
Theorem C98_mount : forall suffix m target dir url,
  (forall f, filepath suffix m url = Some f -> filepath suffix (mount m target dir) url = Some f) /\
  (filepath suffix m url = None -> forall segs, suffix url target = Some segs -> served_by suffix (mount m target dir) url dir segs).
Proof.
  intros suffix m target dir url. split.
  - intros f H. unfold mount. rewrite filepath_app, H. reflexivity.
  - intros H segs S. exists m, target, []. split; [reflexivity|]. split; [exact S|]. apply unserved, H.
Qed.
Print Assumptions C98_mount.

(** Under one mount point, URLs whose segments are other names are read from other files. *)
Theorem C98_apart : forall suffix m url url' dir segs segs' f f', segments_ok suffix ->
  served_by suffix m url dir segs -> served_by suffix m url' dir segs' ->
  (forall s, In s segs \/ In s segs' -> s <> "" /\ s <> ".") -> segs <> segs' ->
  filepath suffix m url = Some f -> filepath suffix m url' = Some f' -> f <> f'.
Proof.
  intros suffix m url url' dir segs segs' f f' OK S S' N D F F' E.
  assert (F0 : filepath suffix m url = Some (fold_left path_push segs dir)) by (apply served; eauto).
  assert (F1 : filepath suffix m url' = Some (fold_left path_push segs' dir)) by (apply served; eauto).
  rewrite F0 in F. rewrite F1 in F'. injection F as <-. injection F' as <-. apply D.
  assert (A : names (fold_left path_push segs dir) = names dir ++ filter is_name segs) by (apply push_all; destruct S as (b & t & a & _ & X & _); intros s I; apply (OK _ _ _ _ X I)).
  assert (B : names (fold_left path_push segs' dir) = names dir ++ filter is_name segs') by (apply push_all; destruct S' as (b & t & a & _ & X & _); intros s I; apply (OK _ _ _ _ X I)).
  rewrite E, B in A. apply app_inv_head in A.
  assert (I : forall l, (forall s, In s l -> s <> "" /\ s <> ".") -> filter is_name l = l).
  { intros l H. induction l as [|s l IH]; cbn [filter]; [reflexivity|]. destruct (H s (or_introl eq_refl)) as [H1 H2]. unfold is_name at 1.
    destruct (streq_spec s ""); [contradiction|]. destruct (streq_spec s "."); [contradiction|]. cbn [negb andb]. rewrite IH; [reflexivity|]. intros x X. apply H. right. exact X. }
  rewrite !I in A by (intros s X; apply N; auto). symmetry. exact A.
Qed.
Print Assumptions C98_apart.

(** *** Instances, for a prefix that ends with a slash *)
Definition sample_suffix (u t : string) : option (list string) :=
  match strip_prefix t u with Some x => if streq x "" then Some [] else Some (split_slash x) | None => None end.

(** A mount point for a longer prefix is not used when it comes later. *)
Theorem C98_longest_refuted : exists m url dir target segs, In (dir, target) m /\ sample_suffix url target = Some segs /\
  (forall d t, In (d, t) m -> sample_suffix url t <> None -> String.length t <= String.length target) /\
  filepath sample_suffix m url <> Some (fold_left path_push segs dir).
Proof.
  exists [("/a", "http://x/"); ("/b", "http://x/y/")], "http://x/y/z", "/b", "http://x/y/", ["z"]. split; [cbn; auto|]. split; [reflexivity|]. split; [|discriminate].
  intros d t [E|[E|[]]] _; injection E as <- <-; cbn; lia.
Qed.
Print Assumptions C98_longest_refuted.
(** The crate checks nothing itself: with segments that are not normalized the file may be outside of the directory. *)
Theorem C98_unchecked_refuted : exists suffix m url f, filepath suffix m url = Some f /\
  forall dir target l, In (dir, target) m -> ~ below dir f l.
Proof.
  exists sample_suffix, [("/a", "http://x/")], "http://x/../b", "/a/../b". split; [reflexivity|]. intros dir target l [E|[]] (N & D & _). injection E as <- <-.
  cbn in N. injection N as <-. apply D. cbn. auto.
Qed.
Print Assumptions C98_unchecked_refuted.

(** A variant that keeps to what is expected. *)
Definition safe_suffix (u t : string) : option (list string) :=
  match sample_suffix u t with Some l => if existsb (streq "..") l then None else Some l | None => None end.
Lemma safe_ok : segments_ok safe_suffix.
Proof.
  intros u t l s. unfold safe_suffix, sample_suffix. destruct (strip_prefix t u) as [x|]; [|discriminate]. destruct (streq x ""); [intros [= <-] []|].
  destruct (existsb (streq "..") (split_slash x)) eqn:E; [discriminate|]. intros [= <-] I. split; [exact (split_parts _ _ I)|]. intros ->.
  assert (T : existsb (streq "..") (split_slash x) = true) by (apply existsb_exists; exists ".."; auto). congruence.
Qed.
Definition c98_m : mounts := mount (mount [] "http://x/" "/srv/x/") "http://y/d/" "data".
Example C98_example : segments_ok safe_suffix /\
  filepath safe_suffix c98_m "http://x/c//v1.jsonld" = Some "/srv/x/c/v1.jsonld" /\ below "/srv/x/" "/srv/x/c/v1.jsonld" ["c"; "v1.jsonld"] /\
  served_by safe_suffix c98_m "http://y/d/e" "data" ["e"] /\ filepath safe_suffix c98_m "http://y/d/e" = Some "data/e" /\
  filepath safe_suffix c98_m "http://y/d/f" = Some "data/f" /\
  filepath safe_suffix c98_m "http://z/" = None /\ filepath safe_suffix (mount c98_m "http://z/" "z") "http://z/" = Some "z" /\
  fs_load safe_suffix (fun f => if streq f "data/e" then Some "[]" else if streq f "data/f" then Some "[" else None) nat (fun s => if streq s "[]" then Some 1 else None) c98_m "http://y/d/e"
    = Ok (MkFsDoc (Some "http://y/d/e") (Some "application/ld+json") None 1).
Proof.
  split; [exact safe_ok|]. split; [reflexivity|]. split; [split; [reflexivity|split; [cbn; intuition discriminate|reflexivity]]|]. split.
  - exists [("/srv/x/", "http://x/")], "http://y/d/", []. split; [reflexivity|]. split; [reflexivity|]. intros d t [E|[]]. injection E as <- <-. reflexivity.
  - repeat split.
Qed.

(** Compaction: where the values are put, with nested objects, maps and lists. *)
From Verif Require Import Prelude Json Str Keyword Enums LangTag LangString Container Stack ContextSyntax Ctx Inverse Process
  Object ObjectJson AddValue CompactIri CompactIriTerm Expand Compact CompactValue CompactProofs CompactKept.

(** ** Specification *)

(** A value for a path of keys.  It is to be in an array ([pt_array]), or to be the only value of
    its path, as it is ([pt_alone]). *)
Record part : Type := MkPart { pt_path : list string; pt_array : bool; pt_alone : bool; pt_value : json }.
(** What there is at a path, for the parts with that path. *)
Record filed (ps : list part) (j : option json) : Prop := {
  fl_alone : forall p, In p ps -> pt_alone p = true -> j = Some (pt_value p);
  fl_values : Forall (fun p => pt_alone p = false) ps ->
    match j with None => [] | Some (JArr l) => l | Some v => [v] end = flat_map (fun p => leaves (pt_value p)) ps;
  fl_array : forall p, In p ps -> pt_alone p = false -> pt_array p = true -> exists l, j = Some (JArr l);
  fl_single : forall p, ps = [p] -> pt_alone p = false -> pt_array p = false -> is_array (pt_value p) = false -> j = Some (pt_value p)
}.
(** The parts for a key, and those for what is under it. *)
Definition at_key (k : string) (ps : list part) : list part :=
  filter (fun p => match pt_path p with [k'] => streq k' k | _ => false end) ps.
Definition below (k : string) (ps : list part) : list part :=
  flat_map (fun p => match pt_path p with
                     | k' :: ((_ :: _) as q) => if streq k' k then [MkPart q (pt_array p) (pt_alone p) (pt_value p)] else []
                     | _ => []
                     end) ps.
(** An object holds the parts, and nothing else. *)
Inductive placed (m : jobject) (ps : list part) : Prop :=
| Placed :
    NoDup (keys m) ->
    (forall k, In k (keys m) -> exists p q, In p ps /\ pt_path p = k :: q) ->
    (forall k p, In p ps -> pt_path p = [k] -> filed (at_key k ps) (assoc k m)) ->
    (forall k p q r, In p ps -> pt_path p = k :: q :: r -> exists x, assoc k m = Some (JObj x) /\ placed x (below k ps)) ->
    placed m ps.
(** A part is in the way of another one. *)
Definition in_the_way (p q : part) : Prop := exists s, pt_path q = pt_path p ++ s /\ (s <> [] \/ pt_alone p = true).
Definition apart (p q : part) : Prop := ~ in_the_way p q /\ ~ in_the_way q p.
(** No part is in the way of another one. *)
Definition clear (ps : list part) : Prop := ForallOrdPairs apart ps.

(** What there is at a path. *)
Fixpoint json_at (j : json) (p : list string) : option json :=
  match p with
  | [] => Some j
  | k :: p => match j with
              | JObj m => match assoc k m with Some j => json_at j p | None => None end
              | _ => None
              end
  end.

(** ** Parts *)
Lemma clear_snoc ps p : clear (ps ++ [p]) -> clear ps /\ Forall (fun q => apart q p) ps.
Proof.
  unfold clear. induction ps as [|q ps IH]; cbn [app]; intros H; [split; constructor|]. inversion H as [|? ? F H']; subst.
  destruct (IH H') as [C A]. apply Forall_app in F. destruct F as [F1 F2]. inversion F2; subst. split; constructor; assumption.
Qed.
Lemma clear_app ps qs : clear (ps ++ qs) -> clear ps.
Proof.
  unfold clear. induction ps as [|q ps IH]; cbn [app]; intros H; [constructor|]. inversion H as [|? ? F H']; subst.
  apply Forall_app in F. constructor; [apply F|apply IH; exact H'].
Qed.
Lemma at_key_app k ps qs : at_key k (ps ++ qs) = at_key k ps ++ at_key k qs.
Proof. apply filter_app. Qed.
Lemma below_app k ps qs : below k (ps ++ qs) = below k ps ++ below k qs.
Proof. apply flat_map_app. Qed.
Lemma at_key_in k p ps : In p (at_key k ps) <-> In p ps /\ pt_path p = [k].
Proof.
  unfold at_key. rewrite filter_In. apply and_iff_compat_l. destruct (pt_path p) as [|k' [|? ?]]; try (split; [discriminate|intros X; discriminate X]).
  destruct (streq_spec k' k) as [->|D]; split; congruence.
Qed.
Lemma at_key_none k ps : (forall p, In p ps -> pt_path p <> [k]) -> at_key k ps = [].
Proof.
  intros H. destruct (at_key k ps) as [|p l] eqn:E; [reflexivity|]. assert (I : In p (at_key k ps)) by (rewrite E; left; reflexivity).
  apply at_key_in in I. destruct I as [I P]. destruct (H _ I P).
Qed.
Lemma below_in k q ps : In q (below k ps) <-> pt_path q <> [] /\ In (MkPart (k :: pt_path q) (pt_array q) (pt_alone q) (pt_value q)) ps.
Proof.
  unfold below. rewrite in_flat_map. split.
  - intros (p & I & J). destruct p as [[|k' [|k2 p]] a b v]; cbn [pt_path] in J; try (destruct J).
    destruct (streq_spec k' k) as [->|_]; [|destruct J]. destruct J as [<-|[]]. cbn [pt_path pt_array pt_alone pt_value]. split; [intros X; discriminate X|exact I].
  - intros [N I]. eexists. split; [exact I|]. cbn [pt_path]. destruct (pt_path q) as [|k2 p] eqn:E; [congruence|]. rewrite streq_refl. left. cbn. rewrite <- E. destruct q; reflexivity.
Qed.
Lemma below_none k ps : (forall p q r, In p ps -> pt_path p <> k :: q :: r) -> below k ps = [].
Proof.
  intros H. destruct (below k ps) as [|q l] eqn:E; [reflexivity|]. assert (I : In q (below k ps)) by (rewrite E; left; reflexivity).
  apply below_in in I. destruct I as [N I]. destruct q as [[|k2 p] a b v]; cbn in *; [congruence|]. destruct (H _ k2 p I eq_refl).
Qed.
Lemma apart_cons k p q : pt_path p <> [] -> pt_path q <> [] ->
  apart (MkPart (k :: pt_path p) (pt_array p) (pt_alone p) (pt_value p)) (MkPart (k :: pt_path q) (pt_array q) (pt_alone q) (pt_value q)) -> apart p q.
Proof.
  intros _ _ [A B]. split; intros (s & E & O); [apply A|apply B]; exists s; cbn; (split; [rewrite E; reflexivity|exact O]).
Qed.
Lemma clear_below k ps : clear ps -> clear (below k ps).
Proof.
  unfold clear. induction 1 as [|p ps F H IH]; [constructor|].
  change (below k (p :: ps)) with (below k ([p] ++ ps)). rewrite below_app.
  destruct (below k [p]) as [|p' l] eqn:E; [exact IH|].
  assert (I : forall q, In q (p' :: l) -> pt_path q <> [] /\ p = MkPart (k :: pt_path q) (pt_array q) (pt_alone q) (pt_value q)).
  { intros q I. rewrite <- E in I. apply below_in in I. destruct I as [N [->|[]]]. auto. }
  assert (L : l = []).
  { unfold below in E. cbn [flat_map] in E. rewrite app_nil_r in E. destruct (pt_path p) as [|k' [|k2 q]]; try discriminate. destruct (streq k' k); [|discriminate]. injection E as _ <-. reflexivity. }
  subst l. cbn [app]. constructor; [|exact IH]. apply Forall_forall. intros q J. apply below_in in J. destruct J as [N J].
  destruct (I p' (or_introl eq_refl)) as [N' ->]. rewrite Forall_forall in F. specialize (F _ J). exact (apart_cons _ _ _ N' N F).
Qed.

(** ** Adding a part *)
Definition stored (j : option json) : list json := match j with None => [] | Some (JArr l) => l | Some v => [v] end.
Lemma filed_nil : filed [] None.
Proof. split; [intros p []|reflexivity|intros p []|discriminate]. Qed.
Lemma kadd_fresh m k v m' : NoDup (keys m) -> assoc k m = None -> is_array v = false -> kadd m k v false = Ok m' -> assoc k m' = Some v.
Proof.
  intros N A V. unfold kadd.
  assert (P : av_prepare m k false = Some m) by (unfold av_prepare; rewrite (get_unique_nodup k m N), A; reflexivity).
  assert (U : av_push m k v = Some (insert k v m)) by (unfold av_push; rewrite (get_unique_nodup k m N), A; reflexivity).
  destruct v; try discriminate V; cbn [add_value]; rewrite P, U; intros H; injection H as <-; rewrite assoc_insert, streq_refl; reflexivity.
Qed.
Lemma filed_add ps m k v b m' path : NoDup (keys m) -> Forall (fun p => pt_alone p = false) ps -> filed ps (assoc k m) ->
  (ps = [] -> assoc k m = None) ->
  kadd m k v b = Ok m' -> filed (ps ++ [MkPart path b false v]) (assoc k m').
Proof.
  intros N NA [_ V A S] Z K. pose proof K as K0. unfold kadd in K. destruct (add_value_ok v m k b N) as (m1 & E & N1 & V1 & O1 & A1 & P1). rewrite E in K. injection K as ->. split.
  - intros p I AL. apply in_app_or in I. destruct I as [I|[<-|[]]]; [|discriminate AL]. rewrite Forall_forall in NA. rewrite (NA _ I) in AL. discriminate.
  - intros _. rewrite flat_map_app. cbn. rewrite app_nil_r. fold (stored (assoc k m')). transitivity (values_of m' k); [unfold values_of, stored; destruct (assoc k m') as [[]|]; reflexivity|].
    rewrite V1. f_equal. rewrite <- (V NA). unfold values_of. destruct (assoc k m) as [[]|]; reflexivity.
  - intros p I AL AR. apply in_app_or in I. destruct I as [I|[<-|[]]]; [|apply A1; exact AR]. destruct (A p I AL AR) as [l L]. exact (P1 l L).
  - intros p E1 AL AR IA. destruct ps as [|q ps]; [|destruct ps; discriminate E1]. injection E1 as <-. cbn in *. subst b. exact (kadd_fresh _ _ _ _ N (Z eq_refl) IA K0).
Qed.
Lemma filed_alone v b path : filed [MkPart path b true v] (Some v).
Proof.
  split.
  - intros p [<-|[]] _. reflexivity.
  - intros F. inversion F; subst. discriminate.
  - intros p [<-|[]]; discriminate.
  - intros p E. injection E as <-. discriminate.
Qed.

Definition place_last (a : bool) (al : bool) (v : json) (k : string) (m : jobject) : result jobject kerr :=
  if al then Ok (insert k v m) else kadd m k v a.
Fixpoint place (p : list string) (k : string) (f : string -> jobject -> result jobject kerr) (m : jobject) : result jobject kerr :=
  match p with
  | [] => f k m
  | h :: p => in_map m h (place p k f)
  end.
Lemma in_map_ok m k f m' : NoDup (keys m) -> in_map m k f = Ok m' ->
  exists x x', f x = Ok x' /\ m' = insert k (JObj x') m /\ (assoc k m = None /\ x = [] \/ assoc k m = Some (JObj x)).
Proof.
  intros N. unfold in_map, kget. rewrite (get_unique_nodup k m N). cbn [bind].
  destruct (assoc k m) as [[| | | | |x]|]; try discriminate.
  - destruct (f x) as [x'|] eqn:E; [|discriminate]. cbn. intros H. injection H as <-. eauto 10.
  - destruct (f []) as [x'|] eqn:E; [|discriminate]. cbn. intros H. injection H as <-. eauto 10.
Qed.
Lemma placed_nil : placed [] [].
Proof. constructor; [constructor|intros k []|intros k p []|intros k p q r []]. Qed.
Lemma placed_once m ps : placed m ps -> NoDup (keys m).
Proof. destruct 1; assumption. Qed.

(** A key without parts. *)
Lemma placed_free m ps k : placed m ps -> (forall p q, In p ps -> pt_path p <> k :: q) -> assoc k m = None.
Proof.
  intros [N K _ _] F. apply assoc_None_notin. intros I. destruct (K _ I) as (p & q & Ip & P). exact (F _ _ Ip P).
Qed.
(** The other keys are not concerned. *)
Lemma placed_others m m' ps p k q :
  placed m ps -> pt_path p = k :: q -> NoDup (keys m') -> (forall k', k' <> k -> assoc k' m' = assoc k' m) ->
  (q = [] -> filed (at_key k (ps ++ [p])) (assoc k m')) ->
  (q <> [] -> exists x, assoc k m' = Some (JObj x) /\ placed x (below k (ps ++ [p]))) ->
  clear (ps ++ [p]) -> placed m' (ps ++ [p]).
Proof.
  intros [N K A B] P N' O HA HB CL. destruct (clear_snoc _ _ CL) as [_ FA]. rewrite Forall_forall in FA.
  assert (SA : forall k', k' <> k -> at_key k' (ps ++ [p]) = at_key k' ps).
  { intros k' D. rewrite at_key_app. rewrite (at_key_none k' [p]); [apply app_nil_r|]. intros x [<-|[]]. rewrite P. congruence. }
  assert (SB : forall k', k' <> k -> below k' (ps ++ [p]) = below k' ps).
  { intros k' D. rewrite below_app. rewrite (below_none k' [p]); [apply app_nil_r|]. intros x a b [<-|[]]. rewrite P. congruence. }
  constructor.
  - exact N'.
  - intros k' I. destruct (streq_spec k' k) as [->|D]; [exists p, q; split; [apply in_or_app; right; left; reflexivity|exact P]|].
    apply in_keys_assoc in I. rewrite O in I by exact D. apply in_keys_assoc in I. destruct (K _ I) as (p1 & q1 & I1 & P1). exists p1, q1. split; [apply in_or_app; left; exact I1|exact P1].
  - intros k' p1 I1 P1. destruct (streq_spec k' k) as [->|D].
    + apply HA. apply in_app_or in I1. destruct I1 as [I1|[<-|[]]]; [|congruence]. destruct (FA _ I1) as [X _]. destruct q as [|q0 q]; [reflexivity|].
      destruct X. exists (q0 :: q). rewrite P, P1. split; [reflexivity|left; discriminate].
    + rewrite O, SA by exact D. apply (A _ p1); [|exact P1]. apply in_app_or in I1. destruct I1 as [I1|[<-|[]]]; [exact I1|]. congruence.
  - intros k' p1 q1 r1 I1 P1. destruct (streq_spec k' k) as [->|D].
    + apply HB. apply in_app_or in I1. destruct I1 as [I1|[<-|[]]]; [|congruence]. destruct (FA _ I1) as [_ X]. intros ->. destruct X. exists (q1 :: r1). rewrite P, P1. split; [reflexivity|left; discriminate].
    + rewrite O, SB by exact D. apply (B _ p1 q1 r1); [|exact P1]. apply in_app_or in I1. destruct I1 as [I1|[<-|[]]]; [exact I1|]. congruence.
Qed.
Lemma place_add a al v : forall q k m ps m', placed m ps -> clear (ps ++ [MkPart (q ++ [k]) a al v]) ->
  place q k (place_last a al v) m = Ok m' -> placed m' (ps ++ [MkPart (q ++ [k]) a al v]).
Proof.
  induction q as [|h q IH]; intros k m ps m' PL CL H; cbn [place app] in *.
  - set (p := MkPart [k] a al v) in *. destruct (clear_snoc _ _ CL) as [_ FA]. rewrite Forall_forall in FA.
    assert (NL : forall x y z, In x ps -> pt_path x <> k :: y :: z).
    { intros x y z I E. destruct (FA _ I) as [_ X]. apply X. exists (y :: z). rewrite E. split; [reflexivity|left; discriminate]. }
    assert (Z : at_key k ps = [] -> assoc k m = None).
    { intros E. apply (placed_free m ps k PL). intros x [|y z] I P; [|exact (NL _ _ _ I P)].
      assert (J : In x (at_key k ps)) by (apply at_key_in; auto). rewrite E in J. exact J. }
    assert (NA : Forall (fun x => pt_alone x = false) (at_key k ps)).
    { apply Forall_forall. intros x I. apply at_key_in in I. destruct I as [I P]. destruct (pt_alone x) eqn:AL; [|reflexivity].
      destruct (FA _ I) as [X _]. destruct X. exists []. rewrite P. split; [reflexivity|right; exact AL]. }
    assert (FK : filed (at_key k ps) (assoc k m)).
    { destruct (at_key k ps) as [|x l] eqn:E; [rewrite Z by reflexivity; exact filed_nil|].
      assert (I : In x (at_key k ps)) by (rewrite E; left; reflexivity). apply at_key_in in I. destruct I as [I P]. rewrite <- E. destruct PL as [_ _ A _]. exact (A _ _ I P). }
    assert (SN : at_key k (ps ++ [p]) = at_key k ps ++ [p]).
    { rewrite at_key_app. f_equal. unfold at_key, p. cbn. rewrite streq_refl. reflexivity. }
    assert (ALN : al = true -> at_key k ps = []).
    { intros ->. apply at_key_none. intros x I P. destruct (FA _ I) as [_ X]. apply X. exists []. rewrite P. split; [reflexivity|right; reflexivity]. }
    unfold place_last in H. destruct al.
    + injection H as <-. apply (placed_others m _ ps p k []); try assumption; try reflexivity.
      * apply nodup_insert. exact (placed_once _ _ PL).
      * intros k' D. rewrite assoc_insert. destruct (streq_spec k' k); congruence.
      * intros _. rewrite SN, (ALN eq_refl), assoc_insert, streq_refl. apply filed_alone.
      * congruence.
    + pose proof (filed_add (at_key k ps) m k v a m' [k] (placed_once _ _ PL) NA FK Z H) as FD.
      unfold kadd in H. destruct (add_value_ok v m k a (placed_once _ _ PL)) as (m1 & E & N1 & V1 & O1 & _). rewrite E in H. injection H as ->.
      apply (placed_others m m' ps p k []); try assumption; try reflexivity.
      * intros _. rewrite SN. exact FD.
      * congruence.
  - set (p := MkPart (h :: q ++ [k]) a al v) in *. destruct (clear_snoc _ _ CL) as [_ FA]. rewrite Forall_forall in FA.
    destruct (in_map_ok _ _ _ _ (placed_once _ _ PL) H) as (x & x' & F & -> & X).
    assert (Q : q ++ [k] <> []) by (destruct q; discriminate).
    assert (SB : below h (ps ++ [p]) = below h ps ++ [MkPart (q ++ [k]) a al v]).
    { rewrite below_app. f_equal. unfold below, p. cbn [flat_map pt_path pt_array pt_alone pt_value]. destruct (q ++ [k]) as [|z r] eqn:E; [congruence|]. rewrite streq_refl. reflexivity. }
    assert (NS : forall y, In y ps -> pt_path y <> [h]).
    { intros y I E. destruct (FA _ I) as [W _]. apply W. exists (q ++ [k]). rewrite E. split; [reflexivity|left; exact Q]. }
    assert (PX : placed x (below h ps)).
    { destruct PL as [N K A B]. destruct X as [[Z ->]|Z].
      - rewrite below_none; [exact placed_nil|]. intros y s r I E. destruct (B _ _ _ _ I E) as (x1 & E1 & _). congruence.
      - assert (I : In h (keys m)) by (apply in_keys_assoc; eauto). destruct (K _ I) as (y & s & Iy & E). destruct s as [|s0 s]; [destruct (NS _ Iy E)|].
        destruct (B _ _ _ _ Iy E) as (x1 & E1 & P1). rewrite E1 in Z. injection Z as <-. exact P1. }
    pose proof (clear_below h _ CL) as CB. rewrite SB in CB. pose proof (IH k x _ x' PX CB F) as PX'.
    apply (placed_others m _ ps p h (q ++ [k])); try assumption; try reflexivity.
    + apply nodup_insert. exact (placed_once _ _ PL).
    + intros k' D. rewrite assoc_insert. destruct (streq_spec k' h); congruence.
    + intros W. destruct (Q W).
    + intros _. exists x'. rewrite assoc_insert, streq_refl, SB. auto.
Qed.

(** What is at a path. *)
Definition with_path (path : list string) (ps : list part) : list part := filter (fun q => list_eqb streq (pt_path q) path) ps.
Definition strip (p : part) : bool * bool * json := (pt_array p, pt_alone p, pt_value p).
Lemma strip_in ps ps' p : map strip ps = map strip ps' -> In p ps' -> exists q, In q ps /\ strip q = strip p.
Proof. intros E I. apply (List.in_map strip) in I. rewrite <- E in I. apply in_map_iff in I. destruct I as (q & S & J). eauto. Qed.
Lemma strip_leaves ps : forall ps', map strip ps = map strip ps' -> flat_map (fun p => leaves (pt_value p)) ps = flat_map (fun p => leaves (pt_value p)) ps'.
Proof. induction ps as [|p ps IH]; intros [|p' ps'] E; try discriminate; [reflexivity|]. injection E as _ _ V E. cbn. rewrite V, (IH _ E). reflexivity. Qed.
Lemma filed_strip ps ps' j : map strip ps = map strip ps' -> filed ps j -> filed ps' j.
Proof.
  intros E [A V R S]. split.
  - intros p I L. destruct (strip_in _ _ _ E I) as (q & J & Q). injection Q as _ Q1 Q2. rewrite <- Q2. apply A; congruence.
  - intros F. rewrite <- (strip_leaves _ _ E). apply V. apply Forall_forall. intros p I. destruct (strip_in _ _ _ (eq_sym E) I) as (q & J & Q). injection Q as _ Q1 _.
    rewrite Forall_forall in F. rewrite <- Q1. apply F. exact J.
  - intros p I L AR. destruct (strip_in _ _ _ E I) as (q & J & Q). injection Q as Q0 Q1 _. apply (R q); congruence.
  - intros p -> L AR IA. destruct ps as [|q [|? ?]]; try discriminate. injection E as Q0 Q1 Q2. rewrite <- Q2. apply (S q); congruence.
Qed.
Lemma list_streq_spec a b : reflect (a = b) (list_eqb streq a b).
Proof.
  revert b. induction a as [|x a IH]; intros [|y b]; try (constructor; congruence). cbn. destruct (streq_spec x y) as [->|D]; [|constructor; congruence].
  destruct (IH b) as [->|D]; constructor; congruence.
Qed.
Lemma with_path_in path p ps : In p (with_path path ps) <-> In p ps /\ pt_path p = path.
Proof. unfold with_path. rewrite filter_In. destruct (list_streq_spec (pt_path p) path); intuition congruence. Qed.
Lemma with_path_one k ps : with_path [k] ps = at_key k ps.
Proof.
  unfold with_path, at_key. apply filter_ext. intros p. destruct (list_streq_spec (pt_path p) [k]) as [->|D]; [rewrite streq_refl; reflexivity|].
  destruct (pt_path p) as [|k' [|? ?]]; try reflexivity. destruct (streq_spec k' k); [congruence|reflexivity].
Qed.
Lemma with_path_below k q r ps : map strip (with_path (q :: r) (below k ps)) = map strip (with_path (k :: q :: r) ps).
Proof.
  induction ps as [|p ps IH]; [reflexivity|]. change (p :: ps) with ([p] ++ ps). rewrite below_app. unfold with_path in *. rewrite !filter_app, !map_app, IH. f_equal.
  destruct p as [[|k' [|k2 p]] a b v]; unfold below; cbn [flat_map pt_path pt_array pt_alone pt_value app].
  - reflexivity.
  - cbn [filter pt_path]. destruct (list_streq_spec [k'] (k :: q :: r)); [discriminate|reflexivity].
  - destruct (streq_spec k' k) as [->|D]; cbn [filter pt_path app].
    + destruct (list_streq_spec (k2 :: p) (q :: r)) as [E|D], (list_streq_spec (k :: k2 :: p) (k :: q :: r)) as [E2|D2]; try reflexivity; exfalso; congruence.
    + destruct (list_streq_spec (k' :: k2 :: p) (k :: q :: r)); [congruence|reflexivity].
Qed.
Lemma placed_at : forall path m ps p, placed m ps -> In p ps -> pt_path p = path -> path <> [] -> filed (with_path path ps) (json_at (JObj m) path).
Proof.
  induction path as [|k [|q r] IH]; intros m ps p PL I P NE; [congruence| |].
  - rewrite with_path_one. cbn [json_at]. destruct PL as [_ _ A _]. specialize (A _ _ I P). destruct (assoc k m); exact A.
  - destruct PL as [_ _ _ B]. destruct (B _ _ _ _ I P) as (x & E & PX). cbn [json_at]. rewrite E.
    apply (filed_strip _ _ _ (with_path_below k q r ps)).
    apply (IH x (below k ps) (MkPart (q :: r) (pt_array p) (pt_alone p) (pt_value p))); [exact PX| |reflexivity|discriminate].
    apply below_in. cbn. split; [discriminate|]. rewrite <- P. destruct p; exact I.
Qed.

(** Every object holds its own entries. *)
Definition own_parts (m : jobject) : list part := map (fun e => MkPart [fst e] false true (snd e)) m.
Lemma own_placed m : NoDup (keys m) -> placed m (own_parts m).
Proof.
  intros N. constructor.
  - exact N.
  - intros k I. apply in_map_iff in I. destruct I as (e & <- & I). exists (MkPart [fst e] false true (snd e)), []. split; [|reflexivity].
    unfold own_parts. apply in_map_iff. eauto.
  - intros k p I P. assert (E : exists v, at_key k (own_parts m) = [MkPart [k] false true v] /\ assoc k m = Some v).
    { unfold own_parts in I. apply in_map_iff in I. destruct I as (e & <- & I). injection P as P. clear - N P I.
      induction m as [|[k' v] m IH]; [destruct I|]. unfold keys in N. cbn [map fst] in N. inversion N as [|? ? NI N']; subst. unfold at_key, own_parts. cbn [map filter pt_path fst snd assoc].
      destruct I as [<-|I].
      - cbn [fst]. rewrite !streq_refl. exists v. split; [|reflexivity]. f_equal. apply (at_key_none k'). intros p J Q. unfold own_parts in J. apply in_map_iff in J. destruct J as (e & <- & J). injection Q as Q. apply NI. apply in_map_iff. eauto.
      - destruct (streq_spec k' (fst e)) as [->|D]; [destruct NI; apply in_map_iff; eauto|]. destruct (streq_spec (fst e) k') as [Q|_]; [congruence|]. exact (IH N' I). }
    destruct E as (v & -> & ->). apply filed_alone.
  - intros k p q r I P. unfold own_parts in I. apply in_map_iff in I. destruct I as (e & <- & I). discriminate P.
Qed.

(** Model of the inverse context and of term selection.
    Source: crates/core/src/context/inverse.rs, and the cache of crates/core/src/context/mod.rs.
    Hash maps are association lists; the iteration order of the definitions is the order of
    [ac_defs], over which the theorems quantify. *)
From Coq Require Import Permutation Sorted.
From Verif Require Import Prelude Keyword Enums LangTag Container Ctx.

(** inverse.rs 70: [LangDir].  Language tags are compared without case. *)
Definition langdir : Type := nullable (option string * option direction).
Definition direction_eqb (a b : direction) : bool :=
  match a, b with Ltr, Ltr | Rtl, Rtl => true | _, _ => false end.
Definition langdir_eqb (a b : langdir) : bool :=
  nullable_eqb (fun x y => opt_eqb lang_eqb (fst x) (fst y) && opt_eqb direction_eqb (snd x) (snd y))%bool a b.

(** inverse.rs 13-17, 78-81. *)
Inductive tsel : Type := TsReverse | TsAny | TsType (t : ty).
Inductive lsel : Type := LsAny | LsLang (l : langdir).
(** inverse.rs 206-210. *)
Inductive selection : Type := SelAny | SelType (l : list tsel) | SelLang (l : list lsel).

(** Hash maps. *)
Section Maps.
Context {K V : Type}.
Variable eqb : K -> K -> bool.
Fixpoint get_by (k : K) (l : list (K * V)) : option V :=
  match l with [] => None | (k', v) :: l => if eqb k k' then Some v else get_by k l end.
(** [reference_mut] followed by an update: inverse.rs 160-169, 247-260. *)
Fixpoint update_by (k : K) (new : V) (f : V -> V) (l : list (K * V)) : list (K * V) :=
  match l with
  | [] => [(k, f new)]
  | (k', v) :: l => if eqb k k' then (k', f v) :: l else (k', v) :: update_by k new f l
  end.
(** Insertion of an absent key: inverse.rs 60-67, 104-111. *)
Definition insert_by (k : K) (v : V) (l : list (K * V)) : list (K * V) :=
  match get_by k l with Some _ => l | None => (k, v) :: l end.
End Maps.

(** inverse.rs 29-33, 72-75, 114-122. *)
Record icont : Type := MkIC {
  ic_lang_any : option string;
  ic_lang : list (langdir * string);
  ic_reverse : option string;
  ic_type_any : option string;
  ic_type : list (ty * string);
  ic_none : string }.
(** inverse.rs 125-138. *)
Definition ic_new (t : string) : icont := MkIC None [] None None [] t.
Definition idef : Type := list (container * icont).
Definition ictx : Type := list (term * idef).

Definition first (a : option string) (t : string) : option string := match a with Some _ => a | None => Some t end.
(** The setters, inverse.rs 47-67 and 94-111. *)
Definition set_reverse (i : icont) t := MkIC (ic_lang_any i) (ic_lang i) (first (ic_reverse i) t) (ic_type_any i) (ic_type i) (ic_none i).
Definition set_type_any (i : icont) t := MkIC (ic_lang_any i) (ic_lang i) (ic_reverse i) (first (ic_type_any i) t) (ic_type i) (ic_none i).
Definition set_lang_any (i : icont) t := MkIC (first (ic_lang_any i) t) (ic_lang i) (ic_reverse i) (ic_type_any i) (ic_type i) (ic_none i).
Definition set_ty (i : icont) y t := MkIC (ic_lang_any i) (ic_lang i) (ic_reverse i) (ic_type_any i) (insert_by ty_eqb y t (ic_type i)) (ic_none i).
Definition set_lang (i : icont) l t := MkIC (ic_lang_any i) (insert_by langdir_eqb l t (ic_lang i)) (ic_reverse i) (ic_type_any i) (ic_type i) (ic_none i).

(** inverse.rs 325-400: what one definition adds to the entry of its IRI and container. *)
Definition add_def (lang : option string) (dir : option direction) (t : string) (d : ndef) (i : icont) : icont :=
  if nd_reverse d then set_reverse i t
  else match nd_typ d with
  | Some TyNone => set_lang_any (set_type_any i t) t
  | Some y => set_ty i y t
  | None =>
      match nd_language d, nd_direction d with
      | Some (NSome l), Some (NSome r) => set_lang i (NSome (Some l, Some r)) t
      | Some (NSome l), Some NNull => set_lang i (NSome (Some l, None)) t
      | Some NNull, Some (NSome r) => set_lang i (NSome (None, Some r)) t
      | Some NNull, Some NNull => set_lang i NNull t
      | Some (NSome l), None => set_lang i (NSome (Some l, None)) t
      | Some NNull, None => set_lang i NNull t
      | None, Some (NSome r) => set_lang i (NSome (None, Some r)) t
      | None, Some NNull => set_lang i (NSome (None, None)) t
      | None, None => set_ty (set_lang (set_lang i (NSome (lang, dir)) t) (NSome (None, None)) t) TyNone t
      end
  end.

(** inverse.rs 312-323: one binding ([None]: the [@type] definition). *)
Definition add_binding (lang : option string) (dir : option direction) (r : ictx) (b : string * option ndef) : ictx :=
  match b with
  | (t, Some d) =>
      match nd_value d with
      | Some v => update_by term_eqb v [] (update_by container_eqb (nd_container d) (ic_new t) (add_def lang dir t d)) r
      | None => r
      end
  | (_, None) => r
  end.

(** inverse.rs 301-310: the order of the definitions, by length and then by bytes. *)
Definition key_le (a b : string) : bool :=
  match Nat.compare (String.length a) (String.length b) with
  | Lt => true
  | Gt => false
  | Eq => match String.compare a b with Gt => false | _ => true end
  end.
Fixpoint insert_sorted {A} (x : string * A) (l : list (string * A)) : list (string * A) :=
  match l with
  | [] => [x]
  | y :: l => if key_le (fst x) (fst y) then x :: y :: l else y :: insert_sorted x l
  end.
Definition sort_by_key {A} (l : list (string * A)) : list (string * A) := fold_right insert_sorted [] l.

(** definition.rs 228-237: the iteration over the definitions. *)
Definition bindings (c : actx) : list (string * option ndef) :=
  (match ac_type c with Some _ => [("@type", None)] | None => [] end) ++ map (fun p => (fst p, Some (snd p))) (ac_defs c).

(** inverse.rs 284-411: [From<&Context>]. *)
Definition inverse_of (c : actx) : ictx :=
  fold_left (add_binding (ac_lang c) (ac_dir c)) (sort_by_key (bindings c)) [].

(** inverse.rs 35-45, 84-92. *)
Definition t_select (i : icont) (s : tsel) : option string :=
  match s with TsReverse => ic_reverse i | TsAny => ic_type_any i | TsType t => get_by ty_eqb t (ic_type i) end.
Definition l_select (i : icont) (s : lsel) : option string :=
  match s with LsAny => ic_lang_any i | LsLang l => get_by langdir_eqb l (ic_lang i) end.
Fixpoint first_of {A} (f : A -> option string) (l : list A) : option string :=
  match l with [] => None | x :: l => match f x with Some t => Some t | None => first_of f l end end.
(** inverse.rs 171-198. *)
Definition c_select (i : icont) (s : selection) : option string :=
  match s with
  | SelAny => Some (ic_none i)
  | SelType l => first_of (t_select i) l
  | SelLang l => first_of (l_select i) l
  end.
Definition d_select (d : idef) (cs : list container) (s : selection) : option string :=
  first_of (fun c => match get_by container_eqb c d with Some i => c_select i s | None => None end) cs.
(** inverse.rs 262-275. *)
Definition select (r : ictx) (v : term) (cs : list container) (s : selection) : option string :=
  match get_by term_eqb v r with Some d => d_select d cs s | None => None end.

(** ** Specification *)

(** [d] is what one looks for with a type selection, resp. a language selection. *)
Definition wants_type (s : tsel) (d : ndef) : Prop :=
  match s with
  | TsReverse => nd_reverse d = true
  | TsAny => nd_reverse d = false /\ nd_typ d = Some TyNone
  | TsType TyNone => nd_reverse d = false /\ nd_typ d = None /\ nd_language d = None /\ nd_direction d = None
  | TsType t => nd_reverse d = false /\ nd_typ d = Some t
  end.
(** Two language tags are the same up to case. *)
Definition same_lang (a b : option string) : Prop :=
  match a, b with
  | None, None => True
  | Some a, Some b => Forall2 same_letter (list_ascii_of_string a) (list_ascii_of_string b)
  | _, _ => False
  end.
Definition wants_lang (lang : option string) (dir : option direction) (s : lsel) (d : ndef) : Prop :=
  match s with
  | LsAny => nd_reverse d = false /\ nd_typ d = Some TyNone
  | LsLang l =>
      nd_reverse d = false /\ nd_typ d = None /\
      match nd_language d, nd_direction d with
      | None, None => (* neither: the defaults of the context, and none *)
          exists a r, l = NSome (a, r) /\ (same_lang a lang /\ r = dir \/ a = None /\ r = None)
      | Some NNull, None | Some NNull, Some NNull => l = NNull
      | dl, dd =>
          exists a, l = NSome (a, match dd with Some (NSome r) => Some r | _ => None end) /\
            same_lang a (match dl with Some (NSome x) => Some x | _ => None end)
      end
  end.
(** One request: any definition, or one for a type or language selection. *)
Inductive request : Type := RqAny | RqType (s : tsel) | RqLang (s : lsel).
Definition requests (s : selection) : list request :=
  match s with SelAny => [RqAny] | SelType l => map RqType l | SelLang l => map RqLang l end.
Definition wants (lang : option string) (dir : option direction) (q : request) (d : ndef) : Prop :=
  match q with RqAny => True | RqType s => wants_type s d | RqLang s => wants_lang lang dir s d end.

(** The term [k] can be selected for the IRI [v], the container [cn] and the request [q]. *)
Definition candidate (c : actx) (v : term) (cn : container) (q : request) (k : string) : Prop :=
  exists d, In (k, d) (ac_defs c) /\ nd_value d = Some v /\ nd_container d = cn /\ wants (ac_lang c) (ac_dir c) q d.
(** Shorter first, then in the order of the bytes. *)
Definition before (a b : string) : Prop :=
  String.length a < String.length b \/ String.length a = String.length b /\ (a = b \/ String.compare a b = Lt).
Definition least_candidate (c : actx) (v : term) (cn : container) (q : request) (k : string) : Prop :=
  candidate c v cn q k /\ forall k', candidate c v cn q k' -> before k k'.
(** [k] is the choice for the containers [cs] and the requests [qs] in this order of preference. *)
Definition selected (c : actx) (v : term) (cs : list container) (qs : list request) (k : string) : Prop :=
  exists cs1 cn cs2 qs1 q qs2, cs = cs1 ++ cn :: cs2 /\ qs = qs1 ++ q :: qs2 /\
    (forall cn' q' k', In cn' cs1 -> In q' qs -> ~ candidate c v cn' q' k') /\
    (forall q' k', In q' qs1 -> ~ candidate c v cn q' k') /\
    least_candidate c v cn q k.

(** ** Proofs *)
Section GetBy.
Context {K V : Type}.
Variable eqb : K -> K -> bool.
Hypothesis Hrefl : forall a, eqb a a = true.
Hypothesis Hsym : forall a b, eqb a b = eqb b a.
Hypothesis Htrans : forall a b c, eqb a b = true -> eqb b c = true -> eqb a c = true.
Lemma get_update k k' n (f : V -> V) l : get_by eqb k (update_by eqb k' n f l) =
  if eqb k k' then Some (f (match get_by eqb k' l with Some v => v | None => n end)) else get_by eqb k l.
Proof.
  induction l as [|[x v] l IH]; cbn [update_by get_by]; [destruct (eqb k k'); reflexivity|].
  destruct (eqb k' x) eqn:E; cbn [get_by].
  - destruct (eqb k k') eqn:E'.
    + rewrite (Htrans _ _ _ E' E). reflexivity.
    + destruct (eqb k x) eqn:E2; [|reflexivity]. rewrite Hsym in E. rewrite (Htrans _ _ _ E2 E) in E'. discriminate.
  - rewrite IH. destruct (eqb k k') eqn:E'; [|reflexivity].
    destruct (eqb k x) eqn:E2; [|reflexivity]. rewrite Hsym in E'. rewrite (Htrans _ _ _ E' E2) in E. discriminate.
Qed.
Lemma get_insert k k' (v : V) l : get_by eqb k (insert_by eqb k' v l) =
  match get_by eqb k l with Some x => Some x | None => if eqb k k' then Some v else None end.
Proof.
  unfold insert_by.
  assert (C : eqb k k' = true -> get_by eqb k l = get_by eqb k' l).
  { intros E. induction l as [|[x w] l IH]; cbn; [reflexivity|]. destruct (eqb k x) eqn:E1, (eqb k' x) eqn:E2; auto.
    - rewrite Hsym in E. rewrite (Htrans _ _ _ E E1) in E2. discriminate.
    - rewrite (Htrans _ _ _ E E2) in E1. discriminate. }
  destruct (get_by eqb k' l) as [w|] eqn:G.
  - destruct (get_by eqb k l) eqn:G'; [reflexivity|]. destruct (eqb k k') eqn:E; [|reflexivity]. specialize (C eq_refl). congruence.
  - cbn [get_by]. destruct (eqb k k') eqn:E; [|destruct (get_by eqb k l); reflexivity]. rewrite (C eq_refl). reflexivity.
Qed.
End GetBy.

Lemma reflect_refl {A} (e : A -> A -> bool) : (forall x y, reflect (x = y) (e x y)) -> forall a, e a a = true.
Proof. intros H a. destruct (H a a); congruence. Qed.
Lemma reflect_sym {A} (e : A -> A -> bool) : (forall x y, reflect (x = y) (e x y)) -> forall a b, e a b = e b a.
Proof. intros H a b. destruct (H a b), (H b a); congruence. Qed.
Lemma reflect_trans {A} (e : A -> A -> bool) : (forall x y, reflect (x = y) (e x y)) ->
  forall a b c, e a b = true -> e b c = true -> e a c = true.
Proof. intros H a b c. destruct (H a b), (H b c), (H a c); congruence. Qed.

Definition opt_lang_eqb := opt_eqb lang_eqb.
Lemma opt_lang_spec a b : opt_lang_eqb a b = true <-> same_lang a b.
Proof.
  unfold opt_lang_eqb, same_lang. destruct a, b; cbn; try (split; [discriminate|tauto]); try tauto.
  unfold lang_eqb. apply ci_eq_spec.
Qed.
Lemma langdir_eqb_spec a b : langdir_eqb a b = true <->
  match a, b with
  | NNull, NNull => True
  | NSome (l, d), NSome (l', d') => same_lang l l' /\ d = d'
  | _, _ => False
  end.
Proof.
  unfold langdir_eqb. destruct a as [|[l d]], b as [|[l' d']]; cbn; try (split; [discriminate|tauto]); try tauto.
  rewrite andb_true_iff. change (opt_eqb lang_eqb l l') with (opt_lang_eqb l l'). rewrite opt_lang_spec.
  enough (opt_eqb direction_eqb d d' = true <-> d = d') by tauto.
  destruct d as [[]|], d' as [[]|]; cbn; split; congruence.
Qed.
Lemma lang_refl a : lang_eqb a a = true. Proof. apply ci_eq_refl. Qed.
Lemma langdir_refl a : langdir_eqb a a = true.
Proof. apply langdir_eqb_spec. destruct a as [|[[]]]; auto. split; [|reflexivity]. apply (opt_lang_spec (Some s) (Some s)). apply lang_refl. split; exact I || reflexivity. Qed.
Lemma same_lang_sym a b : same_lang a b -> same_lang b a.
Proof.
  rewrite <- !opt_lang_spec. unfold opt_lang_eqb. destruct a, b; cbn; auto. apply ci_eq_sym.
Qed.
Lemma same_lang_trans a b c : same_lang a b -> same_lang b c -> same_lang a c.
Proof.
  rewrite <- !opt_lang_spec. unfold opt_lang_eqb. destruct a, b, c; cbn; auto; try discriminate. apply ci_eq_trans.
Qed.
Lemma langdir_sym a b : langdir_eqb a b = langdir_eqb b a.
Proof.
  apply eq_true_iff_eq. rewrite !langdir_eqb_spec. destruct a as [|[]], b as [|[]]; try tauto.
  split; intros [H ->]; split; auto using same_lang_sym.
Qed.
Lemma langdir_trans a b c : langdir_eqb a b = true -> langdir_eqb b c = true -> langdir_eqb a c = true.
Proof.
  rewrite !langdir_eqb_spec. destruct a as [|[]], b as [|[]], c as [|[]]; try tauto.
  intros [H1 ->] [H2 ->]. split; [|reflexivity]. eapply same_lang_trans; eassumption.
Qed.

(** The entry of an IRI and a container, for one request. *)
Definition ic_lookup (i : icont) (q : request) : option string :=
  match q with RqAny => Some (ic_none i) | RqType s => t_select i s | RqLang s => l_select i s end.
Definition lookup (r : ictx) (v : term) (cn : container) (q : request) : option string :=
  match get_by term_eqb v r with
  | Some d => match get_by container_eqb cn d with Some i => ic_lookup i q | None => None end
  | None => None
  end.

Definition wants_typeb (s : tsel) (d : ndef) : bool :=
  match s with
  | TsReverse => nd_reverse d
  | TsAny => negb (nd_reverse d) && match nd_typ d with Some TyNone => true | _ => false end
  | TsType t => negb (nd_reverse d) && match nd_typ d with
      | Some TyNone => false
      | Some y => ty_eqb t y
      | None => ty_eqb t TyNone && match nd_language d, nd_direction d with None, None => true | _, _ => false end
      end
  end%bool.
Definition wants_langb (lang : option string) (dir : option direction) (s : lsel) (d : ndef) : bool :=
  match s with
  | LsAny => negb (nd_reverse d) && match nd_typ d with Some TyNone => true | _ => false end
  | LsLang l => negb (nd_reverse d) && match nd_typ d with
      | Some _ => false
      | None =>
          match nd_language d, nd_direction d with
          | Some (NSome x), Some (NSome r) => langdir_eqb l (NSome (Some x, Some r))
          | Some (NSome x), _ => langdir_eqb l (NSome (Some x, None))
          | _, Some (NSome r) => langdir_eqb l (NSome (None, Some r))
          | Some NNull, _ => langdir_eqb l NNull
          | None, Some NNull => langdir_eqb l (NSome (None, None))
          | None, None => langdir_eqb l (NSome (lang, dir)) || langdir_eqb l (NSome (None, None))
          end
      end
  end%bool.
Definition wantsb (lang : option string) (dir : option direction) (q : request) (d : ndef) : bool :=
  match q with RqAny => true | RqType s => wants_typeb s d | RqLang s => wants_langb lang dir s d end.

Lemma same_lang_none a : same_lang a None <-> a = None.
Proof. destruct a; cbn; split; congruence || tauto. Qed.
Lemma wantsb_spec lang dir q d : wantsb lang dir q d = true <-> wants lang dir q d.
Proof.
  destruct q as [|s|s]; cbn [wantsb wants]; [tauto| |].
  - destruct s as [| |t]; cbn [wants_typeb wants_type]; [tauto| |].
    + destruct (nd_reverse d), (nd_typ d) as [[]|]; cbn; intuition congruence.
    + destruct (nd_reverse d), (nd_typ d) as [y|]; cbn [negb andb].
      * split; [discriminate|]. destruct t; intros [X _]; discriminate.
      * split; [discriminate|]. destruct t; intros [X _]; discriminate.
      * destruct y, t; cbn; try (intuition congruence). destruct (streq_spec s0 s); intuition congruence.
      * destruct t, (nd_language d), (nd_direction d); cbn; intuition congruence.
  - destruct s as [|l]; cbn [wants_langb wants_lang].
    + destruct (nd_reverse d), (nd_typ d) as [[]|]; cbn; intuition congruence.
    + destruct (nd_reverse d), (nd_typ d); cbn [negb andb]; try (split; [discriminate|intros (X & Y & _); discriminate]).
      destruct (nd_language d) as [[|x]|], (nd_direction d) as [[|r]|];
        rewrite ?orb_true_iff, !langdir_eqb_spec; destruct l as [|[a r']].
      all: try (intuition congruence).
      all: try (split; [tauto|intros (_ & _ & ? & ? & _); discriminate]).
      all: try (split; [tauto|intros (_ & _ & ? & ? & ? & _); discriminate]).
      all: try (split; [intros [X ->]; repeat split; auto; exists a; auto|intros (_ & _ & a' & X & Y); injection X as -> ->; auto]; fail).
      all: try (split; [tauto|intros (_ & _ & a' & ? & X & _); discriminate X]).
      split.
      * intros H. repeat split. exists a, r'. split; [reflexivity|]. rewrite same_lang_none in H. tauto.
      * intros (_ & _ & a' & r2 & X & Y). injection X as -> ->. rewrite same_lang_none. tauto.
Qed.

Lemma or_first a t : first a t = match a with Some x => Some x | None => Some t end.
Proof. destruct a; reflexivity. Qed.
(** A definition is added to the requests that want it, unless they have a term already. *)
Lemma add_def_lookup lang dir t d i q : ic_lookup (add_def lang dir t d i) q =
  match ic_lookup i q with Some x => Some x | None => if wantsb lang dir q d then Some t else None end.
Proof.
  assert (N : ic_none (add_def lang dir t d i) = ic_none i).
  { unfold add_def. destruct (nd_reverse d); [reflexivity|]. destruct (nd_typ d) as [[]|]; try reflexivity.
    destruct (nd_language d) as [[]|], (nd_direction d) as [[]|]; reflexivity. }
  assert (SL : forall i l l', l_select (set_lang i l' t) (LsLang l) =
    match l_select i (LsLang l) with Some x => Some x | None => if langdir_eqb l l' then Some t else None end).
  { intros. cbn. apply get_insert; [apply langdir_sym|apply langdir_trans]. }
  assert (ST : forall i y y', t_select (set_ty i y' t) (TsType y) =
    match t_select i (TsType y) with Some x => Some x | None => if ty_eqb y y' then Some t else None end).
  { intros. cbn. apply get_insert; [apply reflect_sym, ty_eqb_spec|apply reflect_trans, ty_eqb_spec]. }
  destruct q as [|s|s]; cbn [ic_lookup wantsb]; [rewrite N; reflexivity| |].
  - unfold add_def. destruct s as [| |y]; cbn [wants_typeb].
    + destruct (nd_reverse d); [cbn; apply or_first|].
      destruct (nd_typ d) as [[]|]; try (cbn; destruct (ic_reverse i); reflexivity).
      destruct (nd_language d) as [[]|], (nd_direction d) as [[]|]; cbn; destruct (ic_reverse i); reflexivity.
    + destruct (nd_reverse d); [cbn; destruct (ic_type_any i); reflexivity|].
      destruct (nd_typ d) as [[]|]; try (cbn; destruct (ic_type_any i); reflexivity).
      destruct (nd_language d) as [[]|], (nd_direction d) as [[]|]; cbn; destruct (ic_type_any i); reflexivity.
    + destruct (nd_reverse d); [change (t_select (set_reverse i t) (TsType y)) with (t_select i (TsType y)); cbn; destruct (get_by _ _ _); reflexivity|].
      cbn [negb andb]. destruct (nd_typ d) as [z|].
      * destruct z; try apply ST. change (t_select (set_lang_any (set_type_any i t) t) (TsType y)) with (t_select i (TsType y)).
        destruct (t_select i (TsType y)); reflexivity.
      * assert (SX : forall i l, t_select (set_lang i l t) (TsType y) = t_select i (TsType y)) by reflexivity.
        destruct (nd_language d) as [[]|], (nd_direction d) as [[]|]; rewrite ?ST, ?SX, ?andb_false_r, ?andb_true_r; destruct (t_select i (TsType y)); reflexivity.
  - unfold add_def. destruct s as [|l]; cbn [wants_langb].
    + destruct (nd_reverse d); [cbn; destruct (ic_lang_any i); reflexivity|].
      destruct (nd_typ d) as [[]|]; try (cbn; destruct (ic_lang_any i); reflexivity).
      destruct (nd_language d) as [[]|], (nd_direction d) as [[]|]; cbn; destruct (ic_lang_any i); reflexivity.
    + destruct (nd_reverse d); [change (l_select (set_reverse i t) (LsLang l)) with (l_select i (LsLang l)); cbn; destruct (get_by _ _ _); reflexivity|].
      cbn [negb andb]. destruct (nd_typ d) as [z|].
      * assert (X : l_select match z with TyNone => set_lang_any (set_type_any i t) t | _ => set_ty i z t end (LsLang l) = l_select i (LsLang l)) by (destruct z; reflexivity).
        rewrite X. destruct (l_select i (LsLang l)); reflexivity.
      * assert (SX : forall i y, l_select (set_ty i y t) (LsLang l) = l_select i (LsLang l)) by reflexivity.
        destruct (nd_language d) as [[]|], (nd_direction d) as [[]|]; rewrite ?SX, ?SL; try reflexivity;
          destruct (l_select i (LsLang l)); try reflexivity; destruct (langdir_eqb l _); reflexivity.
Qed.

Definition bwants (lang : option string) (dir : option direction) (v : term) (cn : container) (q : request) (b : string * option ndef) : bool :=
  match snd b with
  | Some d => match nd_value d with Some v' => term_eqb v v' && container_eqb cn (nd_container d) && wantsb lang dir q d | None => false end
  | None => false
  end%bool.
Lemma ic_new_lookup lang dir t d q : ic_lookup (add_def lang dir t d (ic_new t)) q = if wantsb lang dir q d then Some t else None.
Proof. rewrite add_def_lookup. destruct q as [|[]|[]]; reflexivity. Qed.
Lemma add_binding_lookup lang dir r b v cn q : lookup (add_binding lang dir r b) v cn q =
  match lookup r v cn q with Some x => Some x | None => if bwants lang dir v cn q b then Some (fst b) else None end.
Proof.
  destruct b as [t [d|]]; unfold bwants; cbn [add_binding snd fst]; [|destruct (lookup r v cn q); reflexivity].
  destruct (nd_value d) as [v'|]; [|destruct (lookup r v cn q); reflexivity]. unfold lookup.
  rewrite (get_update term_eqb (reflect_sym _ term_eqb_spec) (reflect_trans _ term_eqb_spec)).
  destruct (term_eqb_spec v v') as [<-|NE]; [|cbn [andb]; destruct (get_by term_eqb v r) as [x|]; [destruct (get_by container_eqb cn x) as [y|]; [destruct (ic_lookup y q)|]|]; reflexivity].
  rewrite (get_update container_eqb (reflect_sym _ container_eqb_spec) (reflect_trans _ container_eqb_spec)).
  destruct (container_eqb_spec cn (nd_container d)) as [->|NE]; cbn [andb].
  - destruct (get_by term_eqb v r) as [x|]; [|apply ic_new_lookup].
    destruct (get_by container_eqb (nd_container d) x) as [y|]; [apply add_def_lookup|apply ic_new_lookup].
  - destruct (get_by term_eqb v r) as [x|]; cbn; [|reflexivity]. destruct (get_by container_eqb cn x) as [y|]; [destruct (ic_lookup y q)|]; reflexivity.
Qed.
(** The inverse context holds, for each request, the first binding that the request wants. *)
Lemma inverse_lookup lang dir v cn q l : forall r, lookup (fold_left (add_binding lang dir) l r) v cn q =
  match lookup r v cn q with Some x => Some x | None => option_map fst (find (bwants lang dir v cn q) l) end.
Proof.
  induction l as [|b l IH]; intros r; cbn [fold_left find].
  - cbn. destruct (lookup r v cn q); reflexivity.
  - rewrite IH, add_binding_lookup. destruct (lookup r v cn q); [reflexivity|].
    destruct (bwants lang dir v cn q b); reflexivity.
Qed.

(** Sorting. *)
Lemma before_trans a b c : before a b -> before b c -> before a c.
Proof.
  unfold before. intros [H|[H [->|H']]] [K|[K [->|K']]]; try (left; lia); try (right; split; [lia|]; auto).
  right.
  assert (TR : forall x y z, String.compare x y = Lt -> String.compare y z = Lt -> String.compare x z = Lt).
  { clear. induction x as [|p x IH]; destruct y as [|q y], z as [|r z]; cbn; try congruence; try discriminate.
    unfold Ascii.compare. destruct (N.compare_spec (N_of_ascii p) (N_of_ascii q)) as [E|L|L]; try discriminate;
    destruct (N.compare_spec (N_of_ascii q) (N_of_ascii r)) as [E'|L'|L']; try discriminate; intros H1 H2.
    - rewrite E, E', N.compare_refl. eauto.
    - rewrite E. rewrite (proj2 (N.compare_lt_iff _ _) L'). reflexivity.
    - rewrite <- E'. rewrite (proj2 (N.compare_lt_iff _ _) L). reflexivity.
    - rewrite (proj2 (N.compare_lt_iff _ _) (N.lt_trans _ _ _ L L')). reflexivity. }
  eapply TR; eassumption.
Qed.

Lemma compare_antisym a b : String.compare b a = CompOpp (String.compare a b).
Proof.
  revert b. induction a as [|p a IH]; destruct b as [|q b]; cbn; try reflexivity.
  unfold Ascii.compare. rewrite (N.compare_antisym (N_of_ascii p) (N_of_ascii q)). destruct (N.compare (N_of_ascii p) (N_of_ascii q)); cbn; auto.
Qed.
Lemma compare_eq a b : String.compare a b = Eq -> a = b.
Proof.
  revert b. induction a as [|p a IH]; destruct b as [|q b]; cbn; try congruence; try discriminate.
  unfold Ascii.compare. destruct (N.compare_spec (N_of_ascii p) (N_of_ascii q)) as [E|L|L]; try discriminate.
  intros H. rewrite (IH _ H). f_equal. rewrite <- (ascii_N_embedding p), <- (ascii_N_embedding q), E. reflexivity.
Qed.
Lemma before_antisym a b : before a b -> before b a -> a = b.
Proof.
  unfold before. intros [H|[H [H'|H']]] [K|[K [K'|K']]]; auto; try lia.
  rewrite compare_antisym, H' in K'. discriminate.
Qed.
Lemma key_le_before a b : key_le a b = true <-> before a b.
Proof.
  unfold key_le, before. destruct (Nat.compare_spec (String.length a) (String.length b)) as [E|L|L].
  - destruct (String.compare a b) eqn:C.
    + apply compare_eq in C. intuition.
    + intuition.
    + split; [discriminate|]. intros [X|[_ [->|X]]]; [lia| |congruence].
      assert (Y := compare_antisym b b). rewrite C in Y. discriminate Y.
  - intuition.
  - split; [discriminate|]. intros [X|[X _]]; lia.
Qed.
Lemma key_le_total a b : key_le a b = false -> before b a.
Proof.
  unfold key_le, before. destruct (Nat.compare_spec (String.length a) (String.length b)) as [E|L|L]; try discriminate.
  - destruct (String.compare a b) eqn:C; try discriminate. intros _. right. split; [lia|]. right. rewrite compare_antisym, C. reflexivity.
  - left. lia.
Qed.
Definition sorted {A} (l : list (string * A)) : Prop := StronglySorted (fun x y => before (fst x) (fst y)) l.
Lemma insert_sorted_in {A} (x y : string * A) l : In y (insert_sorted x l) <-> x = y \/ In y l.
Proof.
  induction l as [|z l IH]; cbn; [tauto|]. destruct (key_le (fst x) (fst z)); cbn; [tauto|]. rewrite IH. tauto.
Qed.
Lemma insert_sorted_sorted {A} (x : string * A) l : sorted l -> sorted (insert_sorted x l).
Proof.
  unfold sorted. induction l as [|z l IH]; cbn; intros H; [repeat constructor|].
  inversion H as [|? ? H1 H2]; subst. destruct (key_le (fst x) (fst z)) eqn:E.
  - constructor; [exact H|]. apply key_le_before in E. constructor; [exact E|].
    eapply Forall_impl; [|exact H2]. intros y Hy. eapply before_trans; eassumption.
  - constructor; [auto|]. apply Forall_forall. intros y Hy. apply insert_sorted_in in Hy. destruct Hy as [<-|Hy].
    + apply key_le_total, E.
    + rewrite Forall_forall in H2. apply H2, Hy.
Qed.
Lemma sort_sorted {A} (l : list (string * A)) : sorted (sort_by_key l).
Proof. induction l; cbn; [constructor|]. apply insert_sorted_sorted. exact IHl. Qed.
Lemma sort_in {A} (y : string * A) l : In y (sort_by_key l) <-> In y l.
Proof. induction l as [|z l IH]; cbn; [tauto|]. rewrite insert_sorted_in, IH. tauto. Qed.

Lemma find_sorted {A} (f : string * A -> bool) l k : sorted l ->
  (option_map fst (find f l) = Some k <->
   (exists x, In (k, x) l /\ f (k, x) = true) /\ forall k' x, In (k', x) l -> f (k', x) = true -> before k k').
Proof.
  unfold sorted. intros S. induction S as [|[z y] l S IH F]; cbn [find].
  - split; [discriminate|]. intros [(x & [] & _) _].
  - destruct (f (z, y)) eqn:E; cbn [option_map fst].
    + assert (ZL : forall k' x, In (k', x) ((z, y) :: l) -> before z k').
      { intros k' x [X|X]; [injection X as -> ->; right; auto|]. rewrite Forall_forall in F. apply (F _ X). }
      split.
      * intros X. injection X as <-. split; [exists y; split; [left; reflexivity|exact E]|]. intros k' x HI _. eapply ZL, HI.
      * intros [(x & HI & HF) M]. f_equal. apply before_antisym; [|apply (M z y (or_introl eq_refl) E)]. eapply ZL, HI.
    + rewrite IH. split; intros [(x & HI & HF) M]; split.
      * exists x. split; [right; exact HI|exact HF].
      * intros k' x' [X|X] Y; [injection X as -> ->; congruence|]. eapply M; eassumption.
      * destruct HI as [X|HI]; [injection X as -> ->; congruence|eauto].
      * intros k' x' X Y. eapply M; [right; exact X|exact Y].
Qed.
Lemma find_none_spec {A} (f : string * A -> bool) l : option_map fst (find f l) = None <-> forall k x, In (k, x) l -> f (k, x) = false.
Proof.
  destruct (find f l) as [[z y]|] eqn:E; cbn; split; try discriminate; auto.
  - intros H. apply find_some in E. destruct E as [E1 E2]. rewrite (H _ _ E1) in E2. discriminate.
  - intros _ k x HI. eapply find_none in E; eassumption.
Qed.

Lemma bindings_wants c v cn q k x : In (k, x) (bindings c) /\ bwants (ac_lang c) (ac_dir c) v cn q (k, x) = true <->
  exists d, x = Some d /\ In (k, d) (ac_defs c) /\ nd_value d = Some v /\ nd_container d = cn /\ wants (ac_lang c) (ac_dir c) q d.
Proof.
  unfold bwants. cbn [snd]. unfold bindings. rewrite in_app_iff, in_map_iff. split.
  - intros [H1 H2]. destruct x as [d|]; [|discriminate]. exists d. split; [reflexivity|].
    destruct (nd_value d) as [v'|]; [|discriminate]. apply andb_true_iff in H2. destruct H2 as [H2 H3]. apply wantsb_spec in H3.
    apply andb_true_iff in H2. destruct H2 as [H2 H4]. destruct (term_eqb_spec v v'); [|discriminate]. destruct (container_eqb_spec cn (nd_container d)); [|discriminate].
    subst. repeat split; auto. destruct H1 as [H1|([k' d'] & E & H1)].
    + destruct (ac_type c); [destruct H1 as [H1|[]]; discriminate H1|destruct H1].
    + cbn in E. injection E as -> ->. exact H1.
  - intros (d & -> & H1 & H2 & H3 & H4). split.
    + right. exists (k, d). auto.
    + rewrite H2. apply andb_true_iff. split; [|apply wantsb_spec, H4]. apply andb_true_iff.
      destruct (term_eqb_spec v v), (container_eqb_spec cn (nd_container d)); auto; congruence.
Qed.
(** The inverse context in terms of the definitions. *)
Lemma inverse_spec c v cn q k : lookup (inverse_of c) v cn q = Some k <-> least_candidate c v cn q k.
Proof.
  unfold inverse_of. rewrite inverse_lookup. cbn [lookup get_by]. rewrite find_sorted by apply sort_sorted.
  unfold least_candidate, candidate. split.
  - intros [(x & HI & HF) M]. rewrite sort_in in HI. pose proof (proj1 (bindings_wants c v cn q k x) (conj HI HF)) as (d & _ & H).
    split; [exists d; exact H|]. intros k' (d' & H'). apply (M k' (Some d')); rewrite ?sort_in; apply (bindings_wants c v cn q k' (Some d')); eauto.
  - intros [(d & H) M]. pose proof (proj2 (bindings_wants c v cn q k (Some d)) (ex_intro _ d (conj eq_refl H))) as [H1 H2].
    split; [exists (Some d); rewrite sort_in; auto|]. intros k' x HI HF. rewrite sort_in in HI.
    pose proof (proj1 (bindings_wants c v cn q k' x) (conj HI HF)) as (d' & _ & H'). apply M. exists d'. exact H'.
Qed.
Lemma inverse_none c v cn q : lookup (inverse_of c) v cn q = None <-> forall k, ~ candidate c v cn q k.
Proof.
  unfold inverse_of. rewrite inverse_lookup. cbn [lookup get_by]. rewrite find_none_spec. split.
  - intros M k (d & H). pose proof (proj2 (bindings_wants c v cn q k (Some d)) (ex_intro _ d (conj eq_refl H))) as [H1 H2].
    rewrite M in H2; [discriminate|]. apply sort_in, H1.
  - intros M k x HI. destruct (bwants (ac_lang c) (ac_dir c) v cn q (k, x)) eqn:E; [|reflexivity]. rewrite sort_in in HI.
    pose proof (proj1 (bindings_wants c v cn q k x) (conj HI E)) as (d & _ & H). destruct (M k). exists d. exact H.
Qed.

(** Selection is the first successful lookup. *)
Definition lookups (r : ictx) (v : term) (cs : list container) (qs : list request) : option string :=
  first_of (fun cn => first_of (lookup r v cn) qs) cs.
Lemma first_of_ext {A} (f g : A -> option string) l : (forall x, f x = g x) -> first_of f l = first_of g l.
Proof. intros H. induction l as [|x l IH]; cbn; [reflexivity|]. rewrite H, IH. reflexivity. Qed.
Lemma first_of_none {A} (l : list A) : first_of (fun _ => None) l = None.
Proof. induction l; cbn; auto. Qed.
Lemma first_of_map {A B} (f : B -> option string) (g : A -> B) l : first_of f (map g l) = first_of (fun x => f (g x)) l.
Proof. induction l as [|x l IH]; cbn; [reflexivity|]. rewrite IH. reflexivity. Qed.
Lemma select_lookups r v cs s : select r v cs s = lookups r v cs (requests s).
Proof.
  unfold select, lookups, d_select. destruct (get_by term_eqb v r) as [d|] eqn:G.
  - apply first_of_ext. intros cn. transitivity (first_of (fun q => match get_by container_eqb cn d with Some i => ic_lookup i q | None => None end) (requests s)).
    + destruct (get_by container_eqb cn d) as [i|]; [|symmetry; apply first_of_none].
      destruct s as [|l|l]; cbn [c_select requests]; [reflexivity|rewrite first_of_map; reflexivity..].
    + apply first_of_ext. intros q. unfold lookup. rewrite G. reflexivity.
  - symmetry. rewrite <- (first_of_none cs). apply first_of_ext. intros cn. rewrite <- (first_of_none (requests s)). apply first_of_ext.
    intros q. unfold lookup. rewrite G. reflexivity.
Qed.
Lemma first_of_some {A} (f : A -> option string) l k : first_of f l = Some k <->
  exists l1 x l2, l = l1 ++ x :: l2 /\ (forall y, In y l1 -> f y = None) /\ f x = Some k.
Proof.
  induction l as [|x l IH]; cbn.
  - split; [discriminate|]. intros ([|] & ? & ? & E & _); discriminate.
  - destruct (f x) as [t|] eqn:E.
    + split.
      * intros X. injection X as ->. exists [], x, l. split; [reflexivity|]. split; [intros _ []|exact E].
      * intros ([|y l1] & x' & l2 & X & H1 & H2); cbn in X; injection X as <- ->; [congruence|]. rewrite (H1 x (or_introl eq_refl)) in E. discriminate.
    + rewrite IH. split.
      * intros (l1 & y & l2 & -> & H1 & H2). exists (x :: l1), y, l2. split; [reflexivity|]. split; [|exact H2].
        intros z [<-|Hz]; auto.
      * intros ([|y l1] & x' & l2 & X & H1 & H2); cbn in X; injection X as <- ->; [congruence|].
        exists l1, x', l2. split; [reflexivity|]. split; [|exact H2]. intros z Hz. apply H1. right. exact Hz.
Qed.
Lemma first_of_none_spec {A} (f : A -> option string) l : first_of f l = None <-> forall y, In y l -> f y = None.
Proof.
  induction l as [|x l IH]; cbn; [tauto|]. destruct (f x) eqn:E.
  - split; [discriminate|]. intros H. rewrite (H x (or_introl eq_refl)) in E. discriminate.
  - rewrite IH. split; [intros H y [<-|Hy]; auto|auto].
Qed.
Lemma select_spec c v cs s k : select (inverse_of c) v cs s = Some k <-> selected c v cs (requests s) k.
Proof.
  rewrite select_lookups. unfold lookups. rewrite first_of_some. unfold selected. split.
  - intros (cs1 & cn & cs2 & -> & H1 & H2). apply first_of_some in H2. destruct H2 as (qs1 & q & qs2 & E & H2 & H3).
    exists cs1, cn, cs2, qs1, q, qs2. split; [reflexivity|]. split; [exact E|]. split; [|split].
    + intros cn' q' k' Hc Hq. specialize (H1 cn' Hc). rewrite first_of_none_spec in H1. apply (proj1 (inverse_none c v cn' q') (H1 q' Hq)).
    + intros q' k' Hq. apply (proj1 (inverse_none c v cn q') (H2 q' Hq)).
    + apply inverse_spec, H3.
  - intros (cs1 & cn & cs2 & qs1 & q & qs2 & -> & E & H1 & H2 & H3). exists cs1, cn, cs2. split; [reflexivity|]. split.
    + intros cn' Hc. apply first_of_none_spec. intros q' Hq. apply inverse_none. intros k'. apply H1; assumption.
    + apply first_of_some. exists qs1, q, qs2. split; [exact E|]. split; [|apply inverse_spec, H3].
      intros q' Hq. apply inverse_none. intros k'. apply H2, Hq.
Qed.
Lemma select_none c v cs s : select (inverse_of c) v cs s = None <->
  forall cn q k, In cn cs -> In q (requests s) -> ~ candidate c v cn q k.
Proof.
  rewrite select_lookups. unfold lookups. rewrite first_of_none_spec. split.
  - intros H cn q k Hc Hq. specialize (H cn Hc). rewrite first_of_none_spec in H. apply (proj1 (inverse_none c v cn q) (H q Hq)).
  - intros H cn Hc. apply first_of_none_spec. intros q Hq. apply inverse_none. intros k. apply H; assumption.
Qed.
(** Contexts with the same definitions, default language and direction select the same terms. *)
Lemma select_same c c' v cs s : (forall k d, In (k, d) (ac_defs c) <-> In (k, d) (ac_defs c')) ->
  ac_lang c = ac_lang c' -> ac_dir c = ac_dir c' -> select (inverse_of c) v cs s = select (inverse_of c') v cs s.
Proof.
  intros HD HL HR. assert (C : forall cn q k, candidate c v cn q k <-> candidate c' v cn q k).
  { intros cn q k. unfold candidate. rewrite HL, HR. split; intros (d & H1 & H2); exists d; split; auto; apply HD; exact H1. }
  assert (S : forall k, selected c v cs (requests s) k <-> selected c' v cs (requests s) k).
  { intros k. unfold selected, least_candidate. split; intros (cs1 & cn & cs2 & qs1 & q & qs2 & E1 & E2 & H1 & H2 & H3 & H4);
      exists cs1, cn, cs2, qs1, q, qs2; repeat split; auto.
    all: try (intros cn' q' k' Hc Hq X; eapply H1; [exact Hc|exact Hq|apply C, X]).
    all: try (intros q' k' Hq X; eapply H2; [exact Hq|apply C, X]).
    all: try (apply C, H3). all: intros k' X; apply H4, C, X. }
  destruct (select (inverse_of c) v cs s) as [k|] eqn:E.
  - symmetry. apply select_spec, S, select_spec, E.
  - symmetry. rewrite select_none in *. intros cn q k Hc Hq X. eapply E; [exact Hc|exact Hq|apply C, X].
Qed.

(** ** The cache: mod.rs 163-225 *)

(** A context and its [inverse] cell. *)
Record cached : Type := MkCached { ca_ctx : actx; ca_inverse : option ictx }.
Inductive op : Type :=
| OpSetNormal (k : string) (d : option ndef)     (* 166-173 *)
| OpSetType (p : option bool)                    (* 176-178: the cell is kept *)
| OpSetBase (i : option string)                  (* 181-184 *)
| OpSetVocab (v : option term)                   (* 187-190 *)
| OpSetLanguage (l : option string)              (* 193-196 *)
| OpSetDirection (d : option direction)          (* 199-202 *)
| OpSetPrevious (p : actx)                       (* 205-208 *)
| OpInverse                                      (* 157-163: [get_or_init] *)
| OpClone.                                       (* 302-315: an empty cell *)
Definition apply_op (o : op) (c : cached) : cached :=
  match o with
  | OpSetNormal k d => MkCached (set_normal (ca_ctx c) k d) None
  | OpSetType p => MkCached (set_type (ca_ctx c) p) (ca_inverse c)
  | OpSetBase i => MkCached (set_base_iri (ca_ctx c) i) None
  | OpSetVocab v => MkCached (set_vocabulary (ca_ctx c) v) None
  | OpSetLanguage l => MkCached (set_default_language (ca_ctx c) l) None
  | OpSetDirection d => MkCached (set_default_direction (ca_ctx c) d) None
  | OpSetPrevious p => MkCached (set_previous (ca_ctx c) p) None
  | OpInverse => MkCached (ca_ctx c) (Some (match ca_inverse c with Some i => i | None => inverse_of (ca_ctx c) end))
  | OpClone => MkCached (ca_ctx c) None
  end.
(** What [inverse] returns. *)
Definition query (c : cached) : ictx := match ca_inverse c with Some i => i | None => inverse_of (ca_ctx c) end.
Definition run (ops : list op) (c : cached) : cached := fold_left (fun c o => apply_op o c) ops c.

Definition fresh (c : cached) : Prop :=
  forall i, ca_inverse c = Some i -> forall v cs s, select i v cs s = select (inverse_of (ca_ctx c)) v cs s.
Lemma apply_fresh o c : fresh c -> fresh (apply_op o c).
Proof.
  unfold fresh. intros H i. destruct o; cbn [apply_op ca_inverse ca_ctx]; try discriminate.
  - intros E v cs s. rewrite (H i E). apply select_same; reflexivity || tauto.
  - intros E v cs s. injection E as <-. destruct (ca_inverse c) as [i|] eqn:E; [apply H; reflexivity|reflexivity].
Qed.
Lemma run_fresh ops : forall c, fresh c -> fresh (run ops c).
Proof. induction ops as [|o ops IH]; intros c H; cbn; [exact H|]. apply IH, apply_fresh, H. Qed.

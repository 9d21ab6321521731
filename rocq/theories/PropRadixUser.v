(** C116: radix trees whose user code ([==], [cmp] and [<] of the key components, [Clone] of the values, closures)
    may do anything. *)
From Verif Require Import RadixUserPure RadixUserPlain RadixFind.

(** ** Specification *)
Section Spec.
  Context {E K : Type}.
  (** the nodes below the root *)
  Inductive strictly_below {V} : rtree K V -> rtree K V -> Prop :=
  | sb_child t x : In x (t_children t) -> strictly_below x t
  | sb_deeper t x y : In x (t_children t) -> strictly_below y x -> strictly_below y t.
  (** what the merges rely on: every node below the root has a first key component *)
  Definition usable {V} (t : rtree K V) : Prop := forall x, strictly_below x t -> t_prefix x <> [].
  (** a piece of user code that never panics *)
  Definition calm {X Y} (f : clos E X Y) : Prop := forall e x, snd (f e x) <> Throw.
  Definition calm_mut {V X} (f : mclos E V X) : Prop := forall e v x, snd (f e v x) <> Throw.
  Definition calm_code (u : ucode E K) : Prop := calm (u_eq u) /\ calm (u_cmp u) /\ calm (u_lt u).
  (** [==] never denies what [cmp] has called Equal at some time *)
  Definition coherent (u : ucode E K) : Prop := forall x y e1 e2, snd (u_cmp u e1 (x, y)) = Ret Eq -> snd (u_eq u e2 (x, y)) <> Ret false.

  (** an in-place call on [self] with the other operand [that]; [quietly]: no user code it runs panics *)
  Definition in_place_ok {V X} (u : ucode E K) (calm_all : Prop) (self : rtree K V) (that : rtree K X) (r : done (rtree K V * E)) : Prop :=
    match r with
    | Done (t, _) => coherent u -> usable self -> usable that -> usable t
    | Unwound (t, _) => (coherent u -> usable self -> usable that -> usable t) /\ (usable self -> usable that -> ~ calm_all)
    | DoneNoFuel => False
    end.
  (** a call that borrows its operands; [good]: what is promised of its result *)
  Definition borrowing_ok {Y} (calm_all usable_all : Prop) (good : Y -> Prop) (r : given_back E Y) : Prop :=
    match r with
    | Some (_, Ret y) => good y
    | Some (_, Throw) => usable_all -> ~ calm_all
    | None => False
    end.
End Spec.

(** all values of a tree *)
Fixpoint all_values {K V} (t : rtree K V) : list V :=
  let 'Node _ v c := t in (match v with Some v => [v] | None => [] end) ++ flat_map all_values c.

(** user code that keeps a list of the values it makes: the copies that [Clone] returns, what a closure leaves behind
    its [&mut], and what a closure returns *)
Section Noting.
  Context {E : Type} {T : Type}.
  Notation W := (E * list T)%type.
  Definition unnoted {X Y} (f : clos E X Y) : clos W X Y := fun s x => let (e, r) := f (fst s) x in ((e, snd s), r).
  Definition noted_clone (f : clos E T T) : clos W T T := fun s x =>
    let (e, r) := f (fst s) x in ((e, match r with Ret y => snd s ++ [y] | Throw => snd s end), r).
  Definition noted_opt {X} (f : clos E X (option T)) : clos W X (option T) := fun s x =>
    let (e, r) := f (fst s) x in ((e, match r with Ret (Some y) => snd s ++ [y] | _ => snd s end), r).
  Definition noted_mut {X} (f : mclos E T X) : mclos W T X := fun s v x =>
    let '(e, v', r) := f (fst s) v x in ((e, snd s ++ [v']), v', r).
  Definition unnoted_code {K} (u : ucode E K) : ucode W K := Ucode (unnoted (u_eq u)) (unnoted (u_cmp u)) (unnoted (u_lt u)).
End Noting.
Section NotingSpec.
  Context {E K V : Type} (eq_dec : forall x y : V, {x = y} + {x <> y}).
  Notation cnt := (count_occ eq_dec).
  (** every value of the tree was there before or was made by the user code, and none is there twice *)
  Definition from_self (self : rtree K V) (r : done (rtree K V * (E * list V))) : Prop :=
    match r with
    | Done (t, (_, made)) | Unwound (t, (_, made)) => forall v, cnt (all_values t) v <= cnt (all_values self) v + cnt made v
    | DoneNoFuel => False
    end.
  Definition made_by_user (r : given_back (E * list V) (rtree K V)) : Prop :=
    match r with
    | Some ((_, made), Ret t) => forall v, cnt (all_values t) v <= cnt made v
    | Some (_, Throw) => True
    | None => False
    end.
End NotingSpec.

(** ** Links *)
Lemma usable_shaped {K V} (t : rtree K V) : usable t <-> shaped t = true.
Proof.
  induction t as [p v c IH] using rtree_ind'. rewrite Forall_forall in IH. rewrite shaped_eq, forallb_forall. cbn [t_children]. split.
  - intros H x Hx. unfold ns, has_head. pose proof (H x (sb_child (Node p v c) _ Hx)) as Q. destruct (t_prefix x); [congruence|]. cbn.
    apply IH; [assumption|]. intros y Hy. apply H. exact (sb_deeper (Node p v c) _ _ Hx Hy).
  - intros H y Hy. inversion Hy as [t x Hx E1 E2|t x y' Hx Hy' E1 E2]; cbn [t_children] in Hx.
    + specialize (H y Hx). unfold ns, has_head in H. apply andb_prop, proj1 in H. now destruct (t_prefix y).
    + specialize (H x Hx). unfold ns in H. apply andb_prop, proj2 in H. apply (proj2 (IH x Hx)) in H. now apply H.
Qed.
Section Links.
  Context {E K : Type} (u : ucode E K).
  Lemma coherent_consistent : coherent u -> consistent u.
  Proof.
    intros C x y e e' (e1 & e2 & Q1) Q2. apply (C x y e1 e); [now rewrite Q1|now rewrite Q2].
  Qed.
  Definition no_weight (_ : E) : nat := 0.
  (** the blame: not every piece of user code is calm *)
  Section Blame.
    Context (Q : Prop).
    Lemma calm_call {X Y} (f : clos E X Y) : (Q -> calm f) -> usercall (~ Q) no_weight f nothing.
    Proof.
      intros C e x e' r H. destruct r; [unfold nothing, no_weight; lia|]. split; [unfold no_weight; lia|].
      intros q. apply (C q e x). now rewrite H.
    Qed.
    Lemma calm_call' {X Y} (f : clos E X Y) (w : Y -> nat) : (forall y, w y = 0) -> (Q -> calm f) -> usercall (~ Q) no_weight f w.
    Proof.
      intros Z C e x e' r H. destruct r as [y|]; [rewrite Z; unfold no_weight; lia|]. split; [unfold no_weight; lia|].
      intros q. apply (C q e x). now rewrite H.
    Qed.
    Lemma calm_mutcall {V X} (f : mclos E V X) : (Q -> calm_mut f) -> mutcall (~ Q) no_weight f nothing.
    Proof.
      intros C e v x e' v' r H. split; [unfold nothing, no_weight; lia|]. intros ->. intros q. apply (C q e v x). now rewrite H.
    Qed.
  End Blame.
  Lemma ip_in_place {V X} (Q : Prop) w (self : rtree K V) (that : rtree K X) e r :
    ip_ok u (~ Q) no_weight w (S (t_size self + t_size that)) self that e r -> in_place_ok u Q self that r.
  Proof.
    unfold in_place_ok. destruct r as [[t e']|[t e']|]; cbn [ip_ok].
    - intros (_ & H) Co Us Ut. apply usable_shaped in Us, Ut. apply usable_shaped. now apply H; [apply coherent_consistent|..].
    - intros (_ & H1 & H2). split.
      + intros Co Us Ut. apply usable_shaped in Us, Ut. apply usable_shaped. now apply H1; [apply coherent_consistent|..].
      + intros Us Ut. apply usable_shaped in Us, Ut. now apply H2.
    - lia.
  Qed.
  Lemma pu_borrowing {V X} (Q : Prop) w (a : rtree K V) (b : rtree K X) e r :
    pu_ok u (~ Q) no_weight w (S (t_size a + t_size b)) a b e r ->
    borrowing_ok Q (usable a /\ usable b) (fun t => coherent u -> usable a -> usable b -> usable t) r.
  Proof.
    unfold pu_ok, borrowing_ok, yields. destruct r as [[e' [t|]]|].
    - intros (_ & H) Co Us Ut. apply usable_shaped in Us, Ut. apply usable_shaped. now apply H; [apply coherent_consistent|..].
    - intros (_ & H) (Us & Ut). apply usable_shaped in Us, Ut. now apply H.
    - lia.
  Qed.
  Lemma bo_borrowing {V X} (Q : Prop) (a : rtree K V) (b : rtree K X) e r N :
    bo_ok (~ Q) no_weight e r (shaped a = true /\ shaped b = true) N -> ~ N ->
    borrowing_ok Q (usable a /\ usable b) (fun _ => True) r.
  Proof.
    unfold bo_ok, borrowing_ok, yields. destruct r as [[e' [t|]]|]; [trivial| |intros H1 H2; now apply H2].
    intros (_ & H) _ (Us & Ut). apply usable_shaped in Us, Ut. now apply H.
  Qed.
  Lemma gives_borrowing {V Y} (Q : Prop) (a : rtree K V) e (r : given_back E Y) w (good : Y -> Prop) :
    gives (~ Q) no_weight e r w good (shaped a = true) -> borrowing_ok Q (usable a) good r.
  Proof.
    unfold borrowing_ok, gives. destruct r as [[e' [t|]]|]; [tauto| |tauto].
    intros (_ & H) Us. apply usable_shaped in Us. now apply H.
  Qed.
End Links.

(** ** C116 *)
Section C116.
  Context {E K : Type} (u : ucode E K) (strat : nat -> nat -> bool).

  (** every in-place call ends; if it panics on usable trees then some user code panics; with coherent comparisons the
      tree is usable afterwards, also when the panic was caught *)
  Theorem C116_in_place :
    (forall V (cl : clos E V V) (f : mclos E V V) self that e,
      in_place_ok u (calm_code u /\ calm cl /\ calm_mut f) self that (urt_outer_combine_with u strat cl f self that e)) /\
    (forall V (cl : clos E V V) self key (v : V) e,
      in_place_ok u (calm_code u /\ calm cl) self (rt_single key v) (urt_insert u strat cl self key v e)) /\
    (forall V X (cx : clos E X X) (f : mclos E V X) self that e,
      in_place_ok u (calm_code u /\ calm cx /\ calm_mut f) self that (urt_inner_combine_with u strat cx f self that e)) /\
    (forall V X (cx : clos E X X) (f : mclos E V X) self that e,
      in_place_ok u (calm_code u /\ calm cx /\ calm_mut f) self that (urt_left_combine_with u strat cx f self that e)) /\
    (forall V X (cx : clos E X X) (f : clos E X bool) (self : rtree K V) that e,
      in_place_ok u (calm_code u /\ calm cx /\ calm f) self that (urt_remove_prefix_with u strat cx f self that e)) /\
    (forall V X (cx : clos E X X) (f : clos E X bool) (self : rtree K V) that e,
      in_place_ok u (calm_code u /\ calm cx /\ calm f) self that (urt_retain_prefix_with u strat cx f self that e)).
  Proof.
    repeat apply conj; intros.
    - eapply ip_in_place, (uouter_with_ok u strat _ _) with (w := nothing); try (apply calm_call; unfold calm_code; tauto).
      apply calm_mutcall. tauto.
    - eapply ip_in_place, (uouter_with_ok u strat _ _) with (w := nothing); try (apply calm_call; unfold calm_code; tauto).
      apply calm_mutcall. intros (_ & C) e0 a b. unfold insert_clos. pose proof (C e0 b) as C0. destruct (cl e0 b) as [e' [b'|]]; cbn [snd] in *; [discriminate|now destruct C0].
    - eapply ip_in_place, (uinner_with_ok u strat _ _) with (w := nothing) (wx := nothing); try (apply calm_call; unfold calm_code; tauto).
      apply calm_mutcall. tauto.
    - eapply ip_in_place, (uleft_with_ok u strat _ _) with (w := nothing) (wx := nothing); try (apply calm_call; unfold calm_code; tauto).
      apply calm_mutcall. tauto.
    - eapply ip_in_place, (uremove_with_ok u strat _ _) with (w := nothing) (wx := nothing); try (apply calm_call; unfold calm_code; tauto).
    - eapply ip_in_place, (uretain_with_ok u strat _ _) with (w := nothing) (wx := nothing); try (apply calm_call; unfold calm_code; tauto).
  Qed.

  (** the same for the calls that build a new tree *)
  Theorem C116_building :
    (forall V (cl : clos E V V) (f : clos E (V * V) (option V)) a b e,
      borrowing_ok (calm_code u /\ calm cl /\ calm f) (usable a /\ usable b)
        (fun t => coherent u -> usable a -> usable b -> usable t) (urt_outer_combine u strat cl f a b e)) /\
    (forall V X (cl : clos E V V) (cx : clos E X X) (f : clos E (V * X) (option V)) a b e,
      borrowing_ok (calm_code u /\ calm cl /\ calm cx /\ calm f) (usable a /\ usable b)
        (fun t => coherent u -> usable a -> usable b -> usable t) (urt_inner_combine u strat cl cx f a b e)) /\
    (forall V X (cl : clos E V V) (cx : clos E X X) (f : clos E (V * option X) (option V)) a b e,
      borrowing_ok (calm_code u /\ calm cl /\ calm cx /\ calm f) (usable a /\ usable b)
        (fun t => coherent u -> usable a -> usable b -> usable t) (urt_left_combine u strat cl cx f a b e)) /\
    (forall V (cl : clos E V V) (t : rtree K V) prefix e,
      borrowing_ok (calm_code u /\ calm cl) (usable t) (fun t' => usable t -> usable t') (urt_filter_prefix u cl t prefix e)).
  Proof.
    assert (Z : forall V (y : option V), ow nothing y = 0) by (now intros V [|]).
    repeat apply conj; intros.
    - eapply pu_borrowing, (uouter_ok u strat _ _) with (w := nothing); try (apply calm_call; unfold calm_code; tauto).
      apply calm_call'; [apply Z|tauto].
    - eapply pu_borrowing, (uinner_ok u strat _ _) with (w := nothing) (wx := nothing); try (apply calm_call; unfold calm_code; tauto).
      apply calm_call'; [apply Z|tauto].
    - eapply pu_borrowing, (uleft_ok u strat _ _) with (w := nothing) (wx := nothing); try (apply calm_call; unfold calm_code; tauto).
      apply calm_call'; [apply Z|tauto].
    - assert (H : gives (~ (calm_code u /\ calm cl)) no_weight e (urt_filter_prefix u cl t prefix e) (tw nothing)
                    (fun t' => shaped t = true -> shaped t' = true) (shaped t = true)).
      { apply ufilter_prefix_ok; try exact strat; apply calm_call; unfold calm_code; tauto. }
      apply gives_borrowing in H. unfold borrowing_ok in *. destruct (urt_filter_prefix _ _ _ _ _) as [[e' [y|]]|]; try exact H.
      rewrite !usable_shaped. exact H.
  Qed.

  (** the same for the questions *)
  Theorem C116_questions :
    (forall V X (a : rtree K V) (b : rtree K X) e,
      borrowing_ok (calm_code u) (usable a /\ usable b) (fun _ => True) (urt_intersects u strat a b e) /\
      borrowing_ok (calm_code u) (usable a /\ usable b) (fun _ => True) (urt_is_subset u strat a b e)) /\
    (forall V (t : rtree K V) key e,
      borrowing_ok (calm_code u) (usable t) (fun _ => True) (urt_get u t key e) /\
      borrowing_ok (calm_code u) (usable t) (fun _ => True) (urt_contains_key u t key e) /\
      borrowing_ok (calm_code u) (usable t) (fun _ => True) (urt_scan_prefix u t key e)).
  Proof.
    repeat apply conj; intros; repeat apply conj.
    - eapply bo_borrowing; [apply uintersects0_ok; apply calm_call; unfold calm_code; tauto|lia].
    - eapply bo_borrowing; [apply uis_subset0_ok; apply calm_call; unfold calm_code; tauto|lia].
    - eapply gives_borrowing, uget_ok; try exact strat; apply calm_call; unfold calm_code; tauto.
    - eapply gives_borrowing, ucontains_ok; try exact strat; apply calm_call; unfold calm_code; tauto.
    - assert (H : gives (~ calm_code u) no_weight e (ufind u t key e) nothing (found_ok t) (shaped t = true)).
      { apply ufind_ok; try exact strat; apply calm_call; unfold calm_code; tauto. }
      unfold urt_scan_prefix. unfold gives in H. unfold borrowing_ok. destruct (ufind u t key e) as [[e' [y|]]|]; cbn [then_].
      + destruct y as [t'|t' rt|]; [| |exact I].
        * now rewrite iter_from_ok.
        * destruct H as (_ & H & _). apply Nat.leb_le in H. rewrite H. now rewrite iter_from_ok.
      + rewrite usable_shaped. tauto.
      + exact H.
  Qed.
End C116.

(** ** Values *)
Section Counting.
  Context {K V : Type} (eq_dec : forall x y : V, {x = y} + {x <> y}).
  Notation cnt := (count_occ eq_dec).
  Definition one (v x : V) : nat := if eq_dec x v then 1 else 0.
  Lemma cnt_one v l : cnt l v = list_sum (map (one v) l).
  Proof.
    induction l as [|x l IH]; [reflexivity|]. cbn [map count_occ]. unfold one at 1. change (list_sum (?a :: ?b)) with (a + list_sum b).
    destruct (eq_dec x v); rewrite IH; reflexivity.
  Qed.
  Lemma cnt_tree v (t : rtree K V) : cnt (all_values t) v = tw (one v) t.
  Proof.
    induction t as [p w c IH] using rtree_ind'. cbn [all_values tw]. rewrite count_occ_app.
    assert (H : cnt (flat_map all_values c) v = list_sum (map (tw (one v)) c)).
    { induction IH as [|x l Hx _ IHl]; [reflexivity|]. cbn [flat_map map]. rewrite count_occ_app, Hx, IHl. reflexivity. }
    rewrite H. f_equal. destruct w as [w|]; [|reflexivity]. cbn [count_occ ow]. unfold one. destruct (eq_dec w v); reflexivity.
  Qed.
  Section Led.
    Context {E : Type} (v : V).
    Definition made_led (s : E * list V) : nat := cnt (snd s) v.
    Lemma unnoted_call {X Y} (f : clos E X Y) : usercall True made_led (unnoted f) nothing.
    Proof.
      intros [e l] x e' r. unfold unnoted. cbn [fst snd]. destruct (f e x) as [e1 r1]. intros [= <- <-]. unfold made_led, nothing. cbn [snd].
      destruct r1; [lia|]. split; [lia|exact I].
    Qed.
    Lemma noted_clone_call (f : clos E V V) : usercall True made_led (noted_clone f) (one v).
    Proof.
      intros [e l] x e' r. unfold noted_clone. cbn [fst snd]. destruct (f e x) as [e1 r1]. intros [= <- <-]. unfold made_led. cbn [snd].
      destruct r1 as [y|]; [|split; [lia|exact I]]. rewrite count_occ_app. cbn [count_occ]. unfold one. destruct (eq_dec y v); lia.
    Qed.
    Lemma noted_opt_call {X} (f : clos E X (option V)) : usercall True made_led (noted_opt f) (ow (one v)).
    Proof.
      intros [e l] x e' r. unfold noted_opt. cbn [fst snd]. destruct (f e x) as [e1 r1]. intros [= <- <-]. unfold made_led. cbn [snd].
      destruct r1 as [[y|]|]; [|cbn [ow]; lia|split; [lia|exact I]]. rewrite count_occ_app. cbn [count_occ ow]. unfold one. destruct (eq_dec y v); lia.
    Qed.
    Lemma noted_mut_call {X} (f : mclos E V X) : mutcall True made_led (noted_mut f) (one v).
    Proof.
      intros [e l] w x e' w' r. unfold noted_mut. cbn [fst snd]. destruct (f e w x) as [[e1 w1] r1]. intros [= <- <- <-]. unfold made_led. cbn [snd].
      split; [|trivial]. rewrite count_occ_app. cbn [count_occ]. unfold one. destruct (eq_dec w1 v); lia.
    Qed.
  End Led.
  Lemma noted_in_place {E X} (u : ucode (E * list V) K) (Q : Prop) (self : rtree K V) (that : rtree K X) e r :
    in_place_ok u Q self that r ->
    (forall v, ip_ok u True (made_led v) (one v) (S (t_size self + t_size that)) self that (e, []) r) -> from_self (E := E) eq_dec self r.
  Proof.
    intros T H. unfold from_self. destruct r as [[t [e' m]]|[t [e' m]]|].
    - intros v. specialize (H v). cbn [ip_ok] in H. destruct H as (H & _). rewrite !cnt_tree. unfold made_led in H. cbn [snd count_occ] in H. lia.
    - intros v. specialize (H v). cbn [ip_ok] in H. destruct H as (H & _). rewrite !cnt_tree. unfold made_led in H. cbn [snd count_occ] in H. lia.
    - exact T.
  Qed.
  Lemma noted_pure {E X} (u : ucode (E * list V) K) (Q Q' : Prop) good (a : rtree K V) (b : rtree K X) e r :
    borrowing_ok Q Q' good r ->
    (forall v, pu_ok u True (made_led v) (one v) (S (t_size a + t_size b)) a b (e, []) r) -> made_by_user (E := E) eq_dec r.
  Proof.
    intros T H. unfold made_by_user. destruct r as [[[e' m] [t|]]|]; [|exact I|exact T].
    intros v. specialize (H v). unfold pu_ok, yields in H. destruct H as (H & _). rewrite cnt_tree. unfold made_led in H. cbn [snd count_occ] in H. lia.
  Qed.
End Counting.

Section C116Values.
  Context {E K : Type} (u : ucode E K) (strat : nat -> nat -> bool).
  (** an in-place call neither invents nor duplicates values, whatever the user code does, also when it unwinds *)
  Theorem C116_values_in_place :
    (forall V eq_dec (cl : clos E V V) (f : mclos E V V) (self that : rtree K V) e,
      from_self eq_dec self (urt_outer_combine_with (unnoted_code u) strat (noted_clone cl) (noted_mut f) self that (e, []))) /\
    (forall V eq_dec (cl : clos E V V) (self : rtree K V) key v e,
      from_self eq_dec self (urt_insert (unnoted_code u) strat (noted_clone cl) self key v (e, []))) /\
    (forall V X eq_dec (cx : clos E X X) (f : mclos E V X) (self : rtree K V) (that : rtree K X) e,
      from_self eq_dec self (urt_inner_combine_with (unnoted_code u) strat (unnoted cx) (noted_mut f) self that (e, []))) /\
    (forall V X eq_dec (cx : clos E X X) (f : mclos E V X) (self : rtree K V) (that : rtree K X) e,
      from_self eq_dec self (urt_left_combine_with (unnoted_code u) strat (unnoted cx) (noted_mut f) self that (e, []))) /\
    (forall V X eq_dec (cx : clos E X X) (f : clos E X bool) (self : rtree K V) (that : rtree K X) e,
      from_self eq_dec self (urt_remove_prefix_with (unnoted_code u) strat (unnoted cx) (unnoted f) self that (e, []))) /\
    (forall V X eq_dec (cx : clos E X X) (f : clos E X bool) (self : rtree K V) (that : rtree K X) e,
      from_self eq_dec self (urt_retain_prefix_with (unnoted_code u) strat (unnoted cx) (unnoted f) self that (e, []))).
  Proof.
    repeat apply conj; intros; pose proof (C116_in_place (unnoted_code (T := V) u) strat) as (T1 & T2 & T3 & T4 & T5 & T6).
    - eapply noted_in_place; [apply T1|]. intros v. apply (uouter_with_ok _ strat True (made_led eq_dec v)); try apply unnoted_call; [apply noted_clone_call|apply noted_mut_call].
    - eapply noted_in_place; [apply T2|]. intros w. apply (uouter_with_ok _ strat True (made_led eq_dec w)); try apply unnoted_call; [apply noted_clone_call|].
      intros [e0 l] a b e' v' r. unfold insert_clos, noted_clone. cbn [fst snd]. destruct (cl e0 b) as [e1 [b'|]]; intros [= <- <- <-].
      + split; [|discriminate]. unfold made_led, one. cbn [snd]. rewrite count_occ_app. cbn [count_occ]. destruct (eq_dec b' w); lia.
      + split; [|trivial]. unfold made_led, one. cbn [snd]. lia.
    - eapply noted_in_place; [apply T3|]. intros v. apply (uinner_with_ok _ strat True (made_led eq_dec v)) with (wx := nothing); try apply unnoted_call; apply noted_mut_call.
    - eapply noted_in_place; [apply T4|]. intros v. apply (uleft_with_ok _ strat True (made_led eq_dec v)) with (wx := nothing); try apply unnoted_call; apply noted_mut_call.
    - eapply noted_in_place; [apply T5|]. intros v. apply (uremove_with_ok _ strat True (made_led eq_dec v)) with (wx := nothing); apply unnoted_call.
    - eapply noted_in_place; [apply T6|]. intros v. apply (uretain_with_ok _ strat True (made_led eq_dec v)) with (wx := nothing); apply unnoted_call.
  Qed.
  (** a tree that is built holds only what the user code made, nothing twice *)
  Theorem C116_values_building :
    (forall V eq_dec (cl : clos E V V) (f : clos E (V * V) (option V)) (a b : rtree K V) e,
      made_by_user eq_dec (urt_outer_combine (unnoted_code u) strat (noted_clone cl) (noted_opt f) a b (e, []))) /\
    (forall V X eq_dec (cl : clos E V V) (cx : clos E X X) (f : clos E (V * X) (option V)) (a : rtree K V) (b : rtree K X) e,
      made_by_user eq_dec (urt_inner_combine (unnoted_code u) strat (noted_clone cl) (unnoted cx) (noted_opt f) a b (e, []))) /\
    (forall V X eq_dec (cl : clos E V V) (cx : clos E X X) (f : clos E (V * option X) (option V)) (a : rtree K V) (b : rtree K X) e,
      made_by_user eq_dec (urt_left_combine (unnoted_code u) strat (noted_clone cl) (unnoted cx) (noted_opt f) a b (e, []))) /\
    (forall V eq_dec (cl : clos E V V) (t : rtree K V) prefix e,
      made_by_user eq_dec (urt_filter_prefix (unnoted_code u) (noted_clone cl) t prefix (e, []))).
  Proof.
    repeat apply conj; intros; pose proof (C116_building (unnoted_code (T := V) u) strat) as (T1 & T2 & T3 & T4).
    - eapply noted_pure; [apply T1|]. intros v. apply (uouter_ok _ strat True (made_led eq_dec v)); try apply unnoted_call; [apply noted_clone_call|apply noted_opt_call].
    - eapply noted_pure; [apply T2|]. intros v. apply (uinner_ok _ strat True (made_led eq_dec v)) with (wx := nothing); try apply unnoted_call; [apply noted_clone_call|apply noted_opt_call].
    - eapply noted_pure; [apply T3|]. intros v. apply (uleft_ok _ strat True (made_led eq_dec v)) with (wx := nothing); try apply unnoted_call; [apply noted_clone_call|apply noted_opt_call].
    - specialize (T4 V (noted_clone cl) t prefix (e, [])).
      assert (H : forall v, gives True (made_led eq_dec v) (e, []) (urt_filter_prefix (unnoted_code u) (noted_clone cl) t prefix (e, [])) (tw (one eq_dec v))
                    (fun t' => shaped t = true -> shaped t' = true) (shaped t = true)).
      { intros v. apply ufilter_prefix_ok; try exact strat; try apply unnoted_call. apply noted_clone_call. }
      unfold made_by_user. destruct (urt_filter_prefix _ _ _ _ _) as [[[e' m] [t'|]]|]; [|exact I|exact T4].
      intros v. specialize (H v). unfold gives in H. destruct H as (H & _). rewrite cnt_tree. unfold made_led in H. cbn [snd count_occ] in H. lia.
  Qed.
End C116Values.

(** ** Plain user code *)
Section C116Plain.
  Context {E K : Type} (kcmp : K -> K -> comparison) (u : ucode E K) (strat : nat -> nat -> bool).
  Context (L : OrdLaws kcmp) (P : plain_code kcmp u).
  (** for comparisons without effects that follow an order, and clones that copy, the in-place calls are those of
      C74 to C76 *)
  Theorem C116_plain_in_place :
    (forall V (cl : clos E V V) f self that e, plain_clone cl ->
      urt_outer_combine_with u strat cl f self that e = ert_outer_combine_with kcmp strat f self that e) /\
    (forall V X (cx : clos E X X) (f : mclos E V X) self that e, plain_clone cx ->
      urt_inner_combine_with u strat cx f self that e = ert_inner_combine_with kcmp strat f self that e /\
      urt_left_combine_with u strat cx f self that e = ert_left_combine_with kcmp strat f self that e) /\
    (forall V X (cx : clos E X X) (f : clos E X bool) (self : rtree K V) that e, plain_clone cx ->
      urt_remove_prefix_with u strat cx f self that e = ert_remove_prefix_with kcmp strat f self that e /\
      urt_retain_prefix_with u strat cx f self that e = ert_retain_prefix_with kcmp strat f self that e).
  Proof using L P.
    repeat apply conj; intros; repeat apply conj.
    - now apply uouter_with_plain.
    - now apply uinner_with_plain.
    - now apply uleft_with_plain.
    - now apply uremove_with_plain.
    - now apply uretain_with_plain.
  Qed.
  (** the calls that build a tree are those of C109, and the questions those of the model without user code *)
  Theorem C116_plain_borrowing :
    (forall V (cl : clos E V V) f a b e, plain_clone cl ->
      urt_outer_combine u strat cl f a b e = prt_outer_combine kcmp strat f a b e) /\
    (forall V X (cl : clos E V V) (cx : clos E X X) f g a b e, plain_clone cl -> plain_clone cx ->
      urt_inner_combine u strat cl cx f a b e = prt_inner_combine kcmp strat f a b e /\
      urt_left_combine u strat cl cx g a b e = prt_left_combine kcmp strat g a b e) /\
    (forall V (cl : clos E V V) (t : rtree K V) prefix e, plain_clone cl ->
      urt_filter_prefix u cl t prefix e = at_ e (rt_filter_prefix kcmp t prefix)) /\
    (forall V (t : rtree K V) key e,
      urt_get u t key e = at_ e (rt_get kcmp t key) /\
      urt_contains_key u t key e = at_ e (rt_contains_key kcmp t key) /\
      urt_scan_prefix u t key e = at_ e (rt_scan_prefix kcmp t key)) /\
    (forall V X (a : rtree K V) (b : rtree K X) e,
      urt_intersects u strat a b e = at_ e (rt_intersects kcmp strat a b) /\
      urt_is_subset u strat a b e = at_ e (rt_is_subset kcmp strat a b)).
  Proof using L P.
    repeat apply conj; intros; repeat apply conj.
    - now apply uouter_plain.
    - now apply uinner_plain.
    - now apply uleft_plain.
    - now apply ufilter_plain.
    - now apply uget_plain.
    - now apply ucontains_plain.
    - now apply uscan_plain.
    - now apply uintersects0_plain.
    - now apply uis_subset0_plain.
  Qed.
End C116Plain.

(** ** Without coherence *)
(** [cmp] and [<] of the numbers, but an [==] that always says no (a PartialEq like that of a float NaN) *)
Definition deny : ucode unit nat :=
  Ucode (fun e _ => (e, Ret false)) (fun e p => (e, Ret (Nat.compare (fst p) (snd p)))) (fun e p => (e, Ret (fst p <? snd p))).
Definition copy_nat : clos unit nat nat := fun e v => (e, Ret v).
Definition ins1 (r : done (rtree nat nat * unit)) (v : nat) : done (rtree nat nat * unit) :=
  match r with Done (t, e) => urt_insert deny (fun _ _ => true) copy_nat t [1] v e | _ => r end.
(** no user code panics, [cmp] is lawful, every tree is made by [insert] from the empty tree: the third [insert] of the
    same key gives a tree that is not usable and the fourth panics *)
Theorem C116_incoherent_panics :
  calm_code deny /\ calm copy_nat /\ (forall x y, u_cmp deny tt (x, y) = (tt, Ret (Nat.compare x y))) /\
  (exists t, fold_left ins1 [10; 20; 30] (Done (rt_empty, tt)) = Done (t, tt) /\ ~ usable t) /\
  (exists t, fold_left ins1 [10; 20; 30; 40] (Done (rt_empty, tt)) = Unwound (t, tt)).
Proof.
  split; [split; [|split]; now intros e x|]. split; [now intros e x|]. split; [reflexivity|]. split.
  - eexists. split; [vm_compute; reflexivity|]. rewrite usable_shaped. discriminate.
  - eexists. vm_compute. reflexivity.
Qed.

(** ** Witnesses *)
(** user code with a budget of calls, after which everything panics; comparisons of numbers *)
Definition tired {X Y} (g : X -> Y) : clos nat X Y := fun e x => match e with 0 => (0, Throw) | S e' => (e', Ret (g x)) end.
Definition tired_code : ucode nat nat :=
  Ucode (tired (fun p => Nat.eqb (fst p) (snd p))) (tired (fun p => Nat.compare (fst p) (snd p))) (tired (fun p => fst p <? snd p)).
Definition tree1 : rtree nat nat := Node [] None [Node [1; 2] (Some 12) [Node [3] (Some 123) []]; Node [4] (Some 40) []].
Definition tree2 : rtree nat nat := Node [] (Some 0) [Node [1; 2; 3] (Some 9) []; Node [5] (Some 50) []].
Example tired_coherent : coherent tired_code.
Proof.
  intros x y e1 e2. cbn [u_cmp u_eq tired_code]. unfold tired. destruct e1; [discriminate|]. cbn [snd fst]. intros [= H].
  apply Nat.compare_eq_iff in H as ->. destruct e2; [discriminate|]. cbn [snd fst]. now rewrite Nat.eqb_refl.
Qed.
Example trees_usable : usable tree1 /\ usable tree2.
Proof. split; now apply usable_shaped. Qed.
Definition sum_mut : mclos nat nat nat := fun e v x => match e with 0 => (0, v, Throw) | S e' => (e', v + x, Ret true) end.
(** with enough calls left it returns, otherwise it panics halfway: the children merged so far are kept *)
Example tired_runs :
  urt_outer_combine_with tired_code (fun _ _ => true) (tired (fun v => v)) sum_mut tree1 tree2 30 =
    Done (Node [] (Some 0) [Node [1; 2] (Some 12) [Node [3] (Some 132) []]; Node [4] (Some 40) []; Node [5] (Some 50) []], 20) /\
  urt_outer_combine_with tired_code (fun _ _ => true) (tired (fun v => v)) sum_mut tree1 tree2 9 =
    Unwound (Node [] (Some 0) [Node [1; 2] (Some 12) [Node [3] (Some 132) []]; Node [4] (Some 40) []], 0).
Proof. vm_compute. split; reflexivity. Qed.
Print Assumptions C116_in_place.
Print Assumptions C116_building.
Print Assumptions C116_questions.
Print Assumptions C116_values_in_place.
Print Assumptions C116_values_building.
Print Assumptions C116_plain_in_place.
Print Assumptions C116_plain_borrowing.
Print Assumptions C116_incoherent_panics.

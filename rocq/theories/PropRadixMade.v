(** C121, C122: the radix tree operations that borrow their operands, and the set operations, when the comparisons answer like
    one total order but may have effects and panic, with a [Clone] and closures that may do anything. *)
From Verif Require Import RadixLawMade RadixUserSetModel RadixReach PropRadixUser PropRadixLaw.
From Verif Require PropRadix.

(** ** Specification (with RadixLawSpec.v and [mapping] of PropRadixLaw.v) *)
Section Spec.
  Context {E K : Type} (kcmp : K -> K -> comparison).
  (** a call that builds a tree: if it returns, the tree is in order, canonical if [canon], and maps every key as [entry] says;
      if it panics, nothing is left of it *)
  Definition lawful_building {V} (canon : Prop) (entry : list K -> option V -> Prop) (r : given_back E (rtree K V)) : Prop :=
    match r with
    | Some (_, Ret t) => WO kcmp t /\ (canon -> Canon kcmp t) /\ exists g, mapping t g /\ forall k, entry k (g k)
    | Some (_, Throw) => True
    | None => False
    end.
  (** a question: if it is answered, the answer is right *)
  Definition lawful_answer {Y} (right_answer : Y -> Prop) (r : given_back E Y) : Prop :=
    match r with
    | Some (_, Ret y) => right_answer y
    | Some (_, Throw) => True
    | None => False
    end.
End Spec.

Section C121.
  Context {E K : Type} (kcmp : K -> K -> comparison) (L : OrdLaws kcmp) (EQ : OrdEq kcmp).
  Context (strat : nat -> nat -> bool) (u : ucode E K) (AN : answers_like kcmp u).
  Notation lk := (lk kcmp).

  Lemma bpack {V X} both (R : option V -> option X -> option V -> Prop) (a : rtree K V) (b : rtree K X) ga gb (r : given_back E (rtree K V)) :
    WO kcmp a -> WO kcmp b -> mapping a ga -> mapping b gb ->
    (forall e t, r = Some (e, Ret t) -> made (kcmp := kcmp) false R a b t) ->
    (Canon kcmp a -> (both = true -> Canon kcmp b) -> forall e t, r = Some (e, Ret t) -> made (kcmp := kcmp) true R a b t) ->
    r <> None ->
    lawful_building kcmp (Canon kcmp a /\ (both = true -> Canon kcmp b)) (fun k z => R (ga k) (gb k) z) r.
  Proof using EQ.
    intros Wa Wb Ma Mb H0 H1 NF. pose proof (mapping_lk kcmp EQ a ga Wa Ma) as Ga. pose proof (mapping_lk kcmp EQ b gb Wb Mb) as Gb.
    destruct r as [[e [t|]]|]; cbn [lawful_building]; [|exact I|now destruct NF].
    destruct (H0 e t eq_refl) as (G1 & G2 & _). split; [exact G2|]. split.
    - intros [C1 C2]. now apply (H1 C1 C2 e t eq_refl).
    - exists (lk t). split; [now apply (lk_mapping kcmp EQ)|]. intros k. rewrite Ga, Gb. apply G1.
  Qed.

  Theorem C121_outer_combine {V} (cl : clos E V V) (f : clos E (V * V) (option V)) (a b : rtree K V) ga gb e :
    WO kcmp a -> WO kcmp b -> mapping a ga -> mapping b gb ->
    lawful_building kcmp (Canon kcmp a /\ Canon kcmp b) (fun k z => outer_made cl f (ga k) (gb k) z) (urt_outer_combine u strat cl f a b e).
  Proof using L EQ AN.
    intros Wa Wb Ma Mb.
    assert (H : lawful_building kcmp (Canon kcmp a /\ (true = true -> Canon kcmp b)) (fun k z => outer_made cl f (ga k) (gb k) z) (urt_outer_combine u strat cl f a b e)).
    { apply bpack; auto.
      - intros e' t. now apply (uouter_made L EQ u AN strat cl f false).
      - intros C1 C2 e' t. apply (uouter_made L EQ u AN strat cl f true); [exact C1|exact (C2 eq_refl)].
      - intros H. pose proof (proj1 (C116_building (E := E) (K := K) u strat) V cl f a b e) as T. now rewrite H in T. }
    destruct (urt_outer_combine u strat cl f a b e) as [[e' [t|]]|]; cbn [lawful_building] in *; auto. tauto.
  Qed.
  (** the right tree is only read: nothing is asked of its shape beyond order *)
  Theorem C121_inner_combine {V X} (cl : clos E V V) (cx : clos E X X) (f : clos E (V * X) (option V)) (a : rtree K V) (b : rtree K X) ga gb e :
    WO kcmp a -> WO kcmp b -> mapping a ga -> mapping b gb ->
    lawful_building kcmp (Canon kcmp a) (fun k z => inner_made cl cx f (ga k) (gb k) z) (urt_inner_combine u strat cl cx f a b e).
  Proof using L EQ AN.
    intros Wa Wb Ma Mb.
    assert (H : lawful_building kcmp (Canon kcmp a /\ (false = true -> Canon kcmp b)) (fun k z => inner_made cl cx f (ga k) (gb k) z) (urt_inner_combine u strat cl cx f a b e)).
    { apply bpack; auto.
      - intros e' t. now apply (uinner_made L EQ u AN strat cl cx false false f).
      - intros C1 C2 e' t. apply (uinner_made L EQ u AN strat cl cx true false f); [exact C1|exact Wb].
      - intros H. pose proof (proj1 (proj2 (C116_building (E := E) (K := K) u strat)) V X cl cx f a b e) as T. now rewrite H in T. }
    destruct (urt_inner_combine u strat cl cx f a b e) as [[e' [t|]]|]; cbn [lawful_building] in *; auto.
    destruct H as (H1 & H2 & H3). split; [exact H1|]. split; [|exact H3]. intros C. apply H2. split; [exact C|discriminate].
  Qed.
  Theorem C121_left_combine {V X} (cl : clos E V V) (cx : clos E X X) (f : clos E (V * option X) (option V)) (a : rtree K V) (b : rtree K X) ga gb e :
    WO kcmp a -> WO kcmp b -> mapping a ga -> mapping b gb ->
    lawful_building kcmp (Canon kcmp a) (fun k z => left_made cl cx f (ga k) (gb k) z) (urt_left_combine u strat cl cx f a b e).
  Proof using L EQ AN.
    intros Wa Wb Ma Mb.
    assert (H : lawful_building kcmp (Canon kcmp a /\ (false = true -> Canon kcmp b)) (fun k z => left_made cl cx f (ga k) (gb k) z) (urt_left_combine u strat cl cx f a b e)).
    { apply bpack; auto.
      - intros e' t. now apply (uleft_made L EQ u AN strat cl cx false false f).
      - intros C1 C2 e' t. apply (uleft_made L EQ u AN strat cl cx true false f); [exact C1|exact Wb].
      - intros H. pose proof (proj1 (proj2 (proj2 (C116_building (E := E) (K := K) u strat))) V X cl cx f a b e) as T. now rewrite H in T. }
    destruct (urt_left_combine u strat cl cx f a b e) as [[e' [t|]]|]; cbn [lawful_building] in *; auto.
    destruct H as (H1 & H2 & H3). split; [exact H1|]. split; [|exact H3]. intros C. apply H2. split; [exact C|discriminate].
  Qed.
  (** a copy of each entry under the prefix, and nothing else *)
  Theorem C121_filter_prefix {V} (cl : clos E V V) (t : rtree K V) p g e : WO kcmp t -> mapping t g ->
    lawful_building kcmp (Canon kcmp t)
      (fun k z => (is_prefix p k -> match g k with Some v => exists v', copied cl v v' /\ z = Some v' | None => z = None end) /\ (~ is_prefix p k -> z = None))
      (urt_filter_prefix u cl t p e).
  Proof using strat L EQ AN.
    intros W M. pose proof (proj2 (proj2 (proj2 (C116_building (E := E) (K := K) u strat))) V cl t p e) as T.
    destruct (urt_filter_prefix u cl t p e) as [[e' [t'|]]|] eqn:Q; cbn [lawful_building borrowing_ok] in *; [|exact I|exact T].
    apply (ufilter_like u AN) in Q as (t0 & Q0 & R1 & R2 & R3 & R4).
    destruct (PropRadix.C54_filter_prefix L EQ t p W) as (t1 & Q1 & W1 & C1 & H1). assert (t1 = t0) by congruence. subst t1.
    assert (W' : WO kcmp t') by (now apply R3). split; [exact W'|]. split; [intros C; apply R3; now apply C1|].
    exists (lk t'). split; [now apply (lk_mapping kcmp EQ)|]. intros k. specialize (R4 k).
    assert (P : forall o, lk t0 k = o -> match o with Some v => has t k v /\ is_prefix p k | None => forall v, ~ (has t k v /\ is_prefix p k) end).
    { intros o Ho. destruct o as [v|]; [|intros v Hv]; rewrite <- (H1 k) in *; apply (lk_has EQ) in Ho || (apply (lk_has EQ) in Hv); auto; congruence. }
    assert (Gk : match g k with Some v => has t k v | None => forall v, ~ has t k v end) by (apply M).
    specialize (P _ eq_refl). split; intros Hp.
    - destruct (lk t0 k) as [v|].
      + destruct P as [P _]. destruct (g k) as [v0|]; [|now apply Gk in P].
        assert (v0 = v) by (apply (lk_has EQ) in P; auto; apply (lk_has EQ) in Gk; auto; congruence). subst v0.
        apply once_some in R4 as (v1 & -> & e1 & e2 & R4). exists v1. split; [now apply copied_one in R4|reflexivity].
      + apply once_none' in R4. destruct (g k) as [v|]; [|exact R4]. exfalso. now apply (P v).
    - destruct (lk t0 k) as [v|]; [tauto|]. now apply once_none' in R4.
  Qed.

  (** a question whose answer agrees with the one without effects *)
  Lemma answer {Y} (good : Y -> Prop) (r : given_back E Y) (r0 : res Y) : like r r0 -> (exists y, r0 = Ok y /\ good y) -> r <> None -> lawful_answer good r.
  Proof using.
    intros Hl (y & -> & G) NF. destruct r as [[e [z|]]|]; cbn [lawful_answer]; [|exact I|now destruct NF].
    specialize (Hl e z eq_refl). now injection Hl as ->.
  Qed.
  Theorem C121_get {V} (t : rtree K V) g key e : WO kcmp t -> mapping t g ->
    lawful_answer (fun o => o = g key) (urt_get u t key e) /\
    lawful_answer (fun b => b = true <-> g key <> None) (urt_contains_key u t key e).
  Proof using strat L EQ AN.
    intros W M. pose proof (proj2 (C116_questions (E := E) (K := K) u strat) V t key e) as (T1 & T2 & _).
    split.
    - eapply answer; [apply (uget_like u AN)| |intros H; now rewrite H in T1].
      exists (lk t key). split; [now apply (get_ok L EQ)|]. symmetry. now apply (mapping_lk kcmp EQ).
    - eapply answer; [apply (ucontains_like u AN)| |intros H; now rewrite H in T2].
      destruct (PropRadix.C44_contains_key L EQ t key W) as (b & Q & H). exists b. split; [exact Q|]. rewrite H.
      specialize (M key). destruct (g key) as [v|]; cbn in M; [split; [discriminate|eauto]|]. split; [intros (v & Hv); now apply M in Hv|congruence].
  Qed.
  Theorem C121_scan_prefix {V} (t : rtree K V) p e : WO kcmp t ->
    lawful_answer (fun l => sorted (lex kcmp) (map fst l) /\ forall k v, In (k, v) l <-> has t k v /\ is_prefix p k) (urt_scan_prefix u t p e).
  Proof using strat L EQ AN.
    intros W. pose proof (proj2 (C116_questions (E := E) (K := K) u strat) V t p e) as (_ & _ & T).
    eapply answer; [apply (uscan_like u AN)| |intros H; now rewrite H in T].
    destruct (PropRadix.C55_scan_prefix L EQ t p W) as (l & Q & S & H). exists l. split; [exact Q|]. split; [exact S|]. exact H.
  Qed.
  Theorem C121_intersects {V X} (a : rtree K V) (b : rtree K X) e : WO kcmp a -> WO kcmp b ->
    lawful_answer (fun r => r = true <-> exists k v w, has a k v /\ has b k w) (urt_intersects u strat a b e).
  Proof using L EQ AN.
    intros Wa Wb. pose proof (proj1 (proj1 (C116_questions (E := E) (K := K) u strat) V X a b e)) as T.
    eapply answer; [apply (uintersects0_like u AN strat)| |intros H; now rewrite H in T].
    exact (PropRadix.C58_intersects L EQ strat a b Wa Wb).
  Qed.
  Theorem C121_is_subset {V X} (a : rtree K V) (b : rtree K X) e : WO kcmp a -> WO kcmp b ->
    lawful_answer (fun r => (r = true -> forall k v, has a k v -> exists w, has b k w) /\
                            (Canon kcmp a -> (forall k v, has a k v -> exists w, has b k w) -> r = true)) (urt_is_subset u strat a b e).
  Proof using L EQ AN.
    intros Wa Wb. pose proof (proj2 (proj1 (C116_questions (E := E) (K := K) u strat) V X a b e)) as T.
    eapply answer; [apply (uis_subset0_like u AN strat)| |intros H; now rewrite H in T].
    destruct (PropRadix.C59_is_subset_sound L EQ strat a b) as (r & Q & H); [now apply PropRadix.C59_check_exact..|].
    exists r. split; [exact Q|]. split; [exact H|]. intros C I'.
    destruct (PropRadix.C57_is_subset L EQ strat a b C Wb) as (r' & Q' & H'). assert (r' = r) by congruence. subst r'. now apply H'.
  Qed.
End C121.

(** ** C122: the set operations *)
(** a copy of the value, if there is one *)
Definition copy_of {E V : Type} (cl : clos E V V) (v : option V) (r : option V) : Prop :=
  match v with Some v => exists v', copied cl v v' /\ r = Some v' | None => r = None end.
(** the first of two *)
Definition either {V : Type} (v w : option V) : option V := match v with Some v => Some v | None => w end.
Definition present {V : Type} (v : option V) : Prop := v <> None.

Section C122.
  Context {E K : Type} (kcmp : K -> K -> comparison) (L : OrdLaws kcmp) (EQ : OrdEq kcmp).
  Context (strat : nat -> nat -> bool) (u : ucode E K) (AN : answers_like kcmp u).
  Lemma copies_then {X} (c : clos E X X) w w1 w2 e e' : copies c w w1 -> c e w1 = (e', Ret w2) -> copied c w w2.
  Proof using.
    intros H Q. induction H as [w|w w0 w' e0 e0' H1 H2 IH].
    - exists e, e', w2. split; [exact Q|constructor].
    - specialize (IH Q). apply (copied_more c w w0 w2 e0 e0' H1 IH).
  Qed.
  Lemma building_weaken {V} (c c' : Prop) (P P' : list K -> option V -> Prop) (r : given_back E (rtree K V)) : lawful_building kcmp c P r ->
    (c' -> c) -> (forall k z, P k z -> P' k z) -> lawful_building kcmp c' P' r.
  Proof using.
    destruct r as [[e [t|]]|]; cbn [lawful_building]; auto. intros (H1 & H2 & g & H3 & H4) Hc HP.
    split; [exact H1|]. split; [auto|]. exists g. split; auto.
  Qed.
  Lemma first_clone_copied {V X} (cl : clos E V V) (cx : clos E X X) v w r : returned cl cx (first_clone cl) v w r -> copy_of cl (Some v) r.
  Proof using.
    intros (v' & w' & e & e' & H1 & H2 & H3). unfold first_clone in H3. cbn [fst] in H3. destruct (cl e v') as [e1 [v1|]] eqn:Q; [|discriminate].
    injection H3 as <- <-. exists v1. split; [now apply (copies_then cl v v' v1 e e1)|reflexivity].
  Qed.
  (** union: a copy of the value of the left tree, or else of the right one *)
  Theorem C122_union {V} (cl : clos E V V) (a b : rtree K V) ga gb e :
    WO kcmp a -> WO kcmp b -> mapping a ga -> mapping b gb ->
    lawful_building kcmp (Canon kcmp a /\ Canon kcmp b) (fun k z => copy_of cl (either (ga k) (gb k)) z) (urt_union u strat cl a b e).
  Proof using L EQ AN.
    intros Wa Wb Ma Mb. eapply building_weaken; [apply (C121_outer_combine kcmp L EQ strat u AN cl (first_clone cl) a b ga gb e Wa Wb Ma Mb)|auto|].
    intros k z. cbn beta. destruct (ga k) as [v|], (gb k) as [w|]; cbn [outer_made either copy_of]; auto. apply first_clone_copied.
  Qed.
  (** intersection: a copy of the value of the left tree where both have one *)
  Theorem C122_intersection {V X} (cl : clos E V V) (cx : clos E X X) (a : rtree K V) (b : rtree K X) ga gb e :
    WO kcmp a -> WO kcmp b -> mapping a ga -> mapping b gb ->
    lawful_building kcmp (Canon kcmp a)
      (fun k z => (present (gb k) -> copy_of cl (ga k) z) /\ (~ present (gb k) -> z = None)) (urt_intersection u strat cl cx a b e).
  Proof using L EQ AN.
    intros Wa Wb Ma Mb. eapply building_weaken; [apply (C121_inner_combine kcmp L EQ strat u AN cl cx (first_clone cl) a b ga gb e Wa Wb Ma Mb)|auto|].
    intros k z. cbn beta. unfold present. destruct (ga k) as [v|], (gb k) as [w|]; cbn [inner_made copy_of]; intros H; split; intros P; try congruence.
    - now apply (first_clone_copied cl cx v w).
    - destruct P. discriminate.
  Qed.
  (** difference: a copy of the value of the left tree where the right one has none *)
  Theorem C122_difference {V X} (cl : clos E V V) (cx : clos E X X) (a : rtree K V) (b : rtree K X) ga gb e :
    WO kcmp a -> WO kcmp b -> mapping a ga -> mapping b gb ->
    lawful_building kcmp (Canon kcmp a)
      (fun k z => (present (gb k) -> z = None) /\ (~ present (gb k) -> copy_of cl (ga k) z)) (urt_difference u strat cl cx a b e).
  Proof using L EQ AN.
    intros Wa Wb Ma Mb. eapply building_weaken; [apply (C121_left_combine kcmp L EQ strat u AN cl cx (clone_unless cl) a b ga gb e Wa Wb Ma Mb)|auto|].
    intros k z. cbn beta. unfold present. destruct (ga k) as [v|], (gb k) as [w|]; cbn [left_made copy_of]; intros H; split; intros P; try congruence.
    - destruct H as (v' & w' & e1 & e2 & _ & _ & H). unfold clone_unless in H. cbn [snd] in H. congruence.
    - destruct P. discriminate.
    - destruct H as [H|(v' & e1 & e2 & H1 & H2)]; [exact H|]. unfold clone_unless in H2. cbn [fst snd] in H2.
      destruct (cl e1 v') as [e3 [v1|]] eqn:Q; [|discriminate]. injection H2 as <- <-. exists v1. split; [now apply (copies_then cl v v' v1 e1 e3)|reflexivity].
  Qed.

  Lemma in_place_weaken {V X} both returns (P P' : list K -> option V -> option V -> Prop) (R R' : list K -> option V -> V -> Prop)
    (a : rtree K V) (b : rtree K X) (r : done (rtree K V * E)) : lawful_in_place kcmp both returns P R a b r ->
    (forall k v z, P k v z -> P' k v z) -> (forall k v z, R k v z -> R' k v z) -> lawful_in_place kcmp both returns P' R' a b r.
  Proof using.
    intros H HP HR gs Ms. specialize (H gs Ms). destruct r as [[t e]|[t e]|]; [| |exact H].
    - destruct H as (H1 & H2 & g & H3 & H4). split; [exact H1|]. split; [exact H2|]. exists g. split; auto.
    - intros O. destruct (H O) as [H1 H2]. split; [exact H1|]. auto.
  Qed.
  Lemma decided_keep {V X} (cx : clos E X X) v w r : decided cx (fun e v _ => (e, v, Ret true)) v w r -> r = Some (v : V).
  Proof using. intros (w' & e & e' & v' & b & _ & H & ->). injection H as <- <- <-. reflexivity. Qed.
  Lemma decided_drop {V X} (cx : clos E X X) v w r : decided cx (fun e v _ => (e, v, Ret false)) v w r -> r = @None V.
  Proof using. intros (w' & e & e' & v' & b & _ & H & ->). injection H as <- <- <-. reflexivity. Qed.
  Lemma touched_keep {V X} (cx : clos E X X) b v w (z : V) : touched cx (fun e v _ => (e, v, Ret b)) v w z -> z = v.
  Proof using. intros (w' & e & e' & r & _ & H). now injection H. Qed.
  (** union_with: the values of [self] stay, copies of the others are added; a panic (not one of [<]) takes nothing from the
      order, and what is left are values of [self] and copies of those that only the other tree has *)
  Theorem C122_union_with {V} (cl : clos E V V) (self that : rtree K V) gt e : WO kcmp self -> WO kcmp that -> mapping that gt ->
    lawful_in_place kcmp true (lt_returns u)
      (fun k v r => match v with Some v => r = Some v | None => copy_of cl (gt k) r end)
      (fun k v z => v = Some z \/ v = None /\ exists w, gt k = Some w /\ copied cl w z)
      self that (urt_union_with u strat cl self that e).
  Proof using L EQ AN.
    intros Wa Wb Mb. eapply in_place_weaken; [apply (C120_outer_combine_with kcmp L EQ strat u AN cl (fun e v _ => (e, v, Ret true)) self that gt e Wa Wb Mb)| |].
    - intros k v z. cbn beta. destruct v as [v|], (gt k) as [w|]; cbn [outer_entry copy_of]; auto. apply decided_keep.
    - intros k v z. cbn beta. destruct v as [v|], (gt k) as [w|]; cbn [outer_rest]; [|intros ->; now left| |intros []].
      + intros [->|H]; [now left|]. left. apply touched_keep in H. now rewrite H.
      + intros H. right. split; [reflexivity|]. now exists w.
  Qed.
  (** intersection_with and difference_with: values of [self] stay or go; what a panic leaves are values of [self] *)
  Theorem C122_intersection_with {V X} (cx : clos E X X) (self : rtree K V) (that : rtree K X) gt e :
    WO kcmp self -> WO kcmp that -> mapping that gt ->
    lawful_in_place kcmp false True
      (fun k v r => (present (gt k) -> r = v) /\ (~ present (gt k) -> r = None)) (fun k v z => v = Some z)
      self that (urt_intersection_with u strat cx self that e).
  Proof using L EQ AN.
    intros Wa Wb Mb. eapply in_place_weaken; [apply (C120_inner_combine_with kcmp L EQ strat u AN cx (fun e v _ => (e, v, Ret true)) self that gt e Wa Wb Mb)| |].
    - intros k v z. cbn beta. unfold present. destruct v as [v|], (gt k) as [w|]; cbn [inner_entry]; intros H; split; intros P; try congruence.
      + now apply decided_keep in H.
      + destruct P. discriminate.
    - intros k v z. cbn beta. destruct v as [v|], (gt k) as [w|]; cbn [with_rest]; [|congruence|intros []..].
      intros [->|H]; [reflexivity|]. apply touched_keep in H. now rewrite H.
  Qed.
  Theorem C122_difference_with {V X} (cx : clos E X X) (self : rtree K V) (that : rtree K X) gt e :
    WO kcmp self -> WO kcmp that -> mapping that gt ->
    lawful_in_place kcmp false True
      (fun k v r => (present (gt k) -> r = None) /\ (~ present (gt k) -> r = v)) (fun k v z => v = Some z)
      self that (urt_difference_with u strat cx self that e).
  Proof using L EQ AN.
    intros Wa Wb Mb. eapply in_place_weaken; [apply (C120_left_combine_with kcmp L EQ strat u AN cx (fun e v _ => (e, v, Ret false)) self that gt e Wa Wb Mb)| |].
    - intros k v z. cbn beta. unfold present. destruct v as [v|], (gt k) as [w|]; cbn [left_entry]; intros H; split; intros P; try congruence.
      + now apply decided_drop in H.
      + destruct P. discriminate.
    - intros k v z. cbn beta. destruct v as [v|], (gt k) as [w|]; cbn [with_rest]; [|congruence|intros []..].
      intros [->|H]; [reflexivity|]. apply touched_keep in H. now rewrite H.
  Qed.
  (** is_disjoint and is_superset *)
  Theorem C122_is_disjoint {V X} (a : rtree K V) (b : rtree K X) e : WO kcmp a -> WO kcmp b ->
    lawful_answer (fun r => r = true <-> ~ exists k v w, has a k v /\ has b k w) (urt_is_disjoint u strat a b e).
  Proof using L EQ AN.
    intros Wa Wb. pose proof (C121_intersects kcmp L EQ strat u AN a b e Wa Wb) as H. unfold urt_is_disjoint.
    destruct (urt_intersects u strat a b e) as [[e' [r|]]|]; cbn [then_ lawful_answer] in *; auto.
    rewrite <- H. destruct r; cbn [negb]; split; congruence.
  Qed.
  Theorem C122_is_superset {V X} (a : rtree K V) (b : rtree K X) e : WO kcmp a -> WO kcmp b ->
    lawful_answer (fun r => (r = true -> forall k w, has b k w -> exists v, has a k v) /\
                            (Canon kcmp b -> (forall k w, has b k w -> exists v, has a k v) -> r = true)) (urt_is_superset u strat a b e).
  Proof using L EQ AN. intros Wa Wb. apply (C121_is_subset kcmp L EQ strat u AN b a e Wb Wa). Qed.
End C122.

(** ** Witnesses: comparisons and clones that count down, clones that mark ([counted_code], [marking], [wa], [wb] of PropRadixLaw.v) *)
Definition adding_opt : clos nat (nat * nat) (option nat) := fun e p => (e, Ret (Some (fst p + snd p))).
Example w121_runs :
  urt_outer_combine counted_code (fun _ _ => true) marking adding_opt wa wb 60 =
    Some (48, Ret (Node [] None [Node [1] (Some 1001) [Node [2] (Some 1012) [Node [3] (Some 3123) []]]; Node [3] (Some 33) []; Node [4; 5] (Some 1045) []])) /\
  urt_outer_combine counted_code (fun _ _ => true) marking adding_opt wa wb 9 = Some (0, Throw) /\
  urt_get counted_code wa [1; 2] 9 = Some (4, Ret (Some 12)) /\ urt_get counted_code wa [1; 2] 3 = Some (0, Throw) /\
  urt_union counted_code (fun _ _ => true) marking wa wb 60 =
    Some (47, Ret (Node [] None [Node [1] (Some 1001) [Node [2] (Some 1012) [Node [3] (Some 3123) []]]; Node [3] (Some 1003) []; Node [4; 5] (Some 1045) []])) /\
  urt_difference counted_code (fun _ _ => true) marking marking wa wb 60 = Some (50, Ret (Node [1] (Some 1001) [Node [2] (Some 1012) []])) /\
  urt_union_with counted_code (fun _ _ => true) marking wa wb 9 =
    Unwound (Node [] None [Node [1] (Some 1) [Node [2] (Some 12) [Node [3] (Some 3123) []]]; Node [3] (Some 3) []], 0).
Proof. vm_compute. repeat split; reflexivity. Qed.
Print Assumptions C121_outer_combine.
Print Assumptions C121_inner_combine.
Print Assumptions C121_left_combine.
Print Assumptions C121_filter_prefix.
Print Assumptions C121_get.
Print Assumptions C121_scan_prefix.
Print Assumptions C121_intersects.
Print Assumptions C121_is_subset.
Print Assumptions C122_union.
Print Assumptions C122_intersection.
Print Assumptions C122_difference.
Print Assumptions C122_union_with.
Print Assumptions C122_intersection_with.
Print Assumptions C122_difference_with.
Print Assumptions C122_is_disjoint.
Print Assumptions C122_is_superset.

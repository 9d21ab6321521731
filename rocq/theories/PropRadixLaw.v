(** C120: in-place radix tree operations whose comparisons answer like one total order but may have effects and panic, with
    a [Clone] and closures that may do anything. *)
From Verif Require Import RadixLawOps RadixReach PropRadixUser.

(** ** Specification (with RadixLawSpec.v) *)
(** [g] is what the tree maps each key to *)
Definition mapping {K V : Type} (t : rtree K V) (g : list K -> option V) : Prop := forall k, holds t k (g k).

Section C120Spec.
  Context {E K : Type} (kcmp : K -> K -> comparison).
  (** [entry k v r]: the operation may turn the entry [v] of [self] at [k] into [r];
      [rest k v z]: after a panic, [z] may be what is left at [k] where [self] had [v] *)
  Definition lawful_in_place {V X} (both : bool) (returns : Prop) (entry : list K -> option V -> option V -> Prop)
    (rest : list K -> option V -> V -> Prop) (self : rtree K V) (that : rtree K X) (r : done (rtree K V * E)) : Prop :=
    forall gs, mapping self gs ->
    match r with
    | Done (t, _) =>
        WO kcmp t /\ (Canon kcmp self -> (both = true -> Canon kcmp that) -> Canon kcmp t) /\
        exists g, mapping t g /\ forall k, entry k (gs k) (g k)
    | Unwound (t, _) => returns -> WO kcmp t /\ forall k z, has t k z -> rest k (gs k) z
    | DoneNoFuel => False
    end.
End C120Spec.

Section C120.
  Context {E K : Type} (kcmp : K -> K -> comparison) (L : OrdLaws kcmp) (EQ : OrdEq kcmp).
  Context (strat : nat -> nat -> bool) (u : ucode E K) (AN : answers_like kcmp u).

  Lemma mapping_lk {V} (t : rtree K V) g : WO kcmp t -> mapping t g -> forall k, g k = lk kcmp t k.
  Proof using EQ. intros W M k. symmetry. apply (holds_lk EQ t k (g k) W). apply M. Qed.
  Lemma lk_mapping {V} (t : rtree K V) : WO kcmp t -> mapping t (lk kcmp t).
  Proof using EQ. intros W k. now apply (holds_lk EQ t k _ W). Qed.

  (** from the law at each canonicity, and termination *)
  Lemma pack {V X} both returns
    (Rk : option V -> (list K -> option X) -> list K -> option V -> Prop) (Lk : option V -> (list K -> option X) -> list K -> V -> Prop)
    (self : rtree K V) (that : rtree K X) gt (r : done (rtree K V * E)) :
    (forall v g g' k z, (forall k', g k' = g' k') -> Rk v g k z -> Rk v g' k z) ->
    (forall v g g' k z, (forall k', g k' = g' k') -> Lk v g k z -> Lk v g' k z) ->
    WO kcmp self -> WO kcmp that -> mapping that gt ->
    tdone (kcmp := kcmp) false Rk Lk returns self that r ->
    (Canon kcmp self -> (both = true -> Canon kcmp that) -> tdone (kcmp := kcmp) true Rk Lk returns self that r) ->
    r <> DoneNoFuel ->
    lawful_in_place kcmp both returns (fun k v z => Rk v gt k z) (fun k v z => Lk v gt k z) self that r.
  Proof using EQ.
    intros XR XL Ws Wt Mt T0 T1 NF gs Ms. pose proof (mapping_lk that gt Wt Mt) as Gt. pose proof (mapping_lk self gs Ws Ms) as Gs.
    destruct r as [[t e]|[t e]|]; cbn [tdone] in *; [| |now destruct NF].
    - destruct T0 as (R & W & _). split; [exact W|]. split; [intros C1 C2; now apply T1|]. exists (lk kcmp t). split; [now apply lk_mapping|].
      intros k. rewrite Gs. apply (XR _ (lk kcmp that)); [intros; now rewrite Gt|]. apply R.
    - intros O. destruct (T0 O) as [W R]. split; [exact W|]. intros k z H. rewrite Gs. apply (XL _ (lk kcmp that)); [intros; now rewrite Gt|].
      apply R. now apply (lk_has EQ).
  Qed.

  Theorem C120_outer_combine_with {V} (cl : clos E V V) (f : mclos E V V) (self that : rtree K V) gt e :
    WO kcmp self -> WO kcmp that -> mapping that gt ->
    lawful_in_place kcmp true (lt_returns u) (fun k v r => outer_entry cl f v (gt k) r) (fun k v z => outer_rest cl f v (gt k) z)
      self that (urt_outer_combine_with u strat cl f self that e).
  Proof using L EQ AN.
    intros Ws Wt Mt.
    apply (pack true (lt_returns u) (fun v g k z => outer_entry cl f v (g k) z) (fun v g k z => outer_rest cl f v (g k) z)); auto.
    - intros v g g' k z H. now rewrite (H k).
    - intros v g g' k z H. now rewrite (H k).
    - now apply (uouter_law L EQ u AN strat cl f false).
    - intros C1 C2. apply (uouter_law L EQ u AN strat cl f true); [exact C1|exact (C2 eq_refl)].
    - intros H. pose proof (proj1 (C116_in_place (E := E) (K := K) u strat) V cl f self that e) as T. now rewrite H in T.
  Qed.

  (** the other operand is only read: nothing is asked of its shape beyond order *)
  Theorem C120_inner_combine_with {V X} (cx : clos E X X) (f : mclos E V X) (self : rtree K V) (that : rtree K X) gt e :
    WO kcmp self -> WO kcmp that -> mapping that gt ->
    lawful_in_place kcmp false True (fun k v r => inner_entry cx f v (gt k) r) (fun k v z => with_rest cx f v (gt k) z)
      self that (urt_inner_combine_with u strat cx f self that e).
  Proof using L EQ AN.
    intros Ws Wt Mt.
    apply (pack false True (fun v g k z => inner_entry cx f v (g k) z) (fun v g k z => with_rest cx f v (g k) z)); auto.
    - intros v g g' k z H. now rewrite (H k).
    - intros v g g' k z H. now rewrite (H k).
    - now apply (uinner_law L EQ u AN strat cx f false false).
    - intros C1 _. apply (uinner_law L EQ u AN strat cx f true false); [exact C1|exact Wt].
    - intros H. pose proof (proj1 (proj2 (proj2 (C116_in_place (E := E) (K := K) u strat))) V X cx f self that e) as T. now rewrite H in T.
  Qed.
  Theorem C120_left_combine_with {V X} (cx : clos E X X) (f : mclos E V X) (self : rtree K V) (that : rtree K X) gt e :
    WO kcmp self -> WO kcmp that -> mapping that gt ->
    lawful_in_place kcmp false True (fun k v r => left_entry cx f v (gt k) r) (fun k v z => with_rest cx f v (gt k) z)
      self that (urt_left_combine_with u strat cx f self that e).
  Proof using L EQ AN.
    intros Ws Wt Mt.
    apply (pack false True (fun v g k z => left_entry cx f v (g k) z) (fun v g k z => with_rest cx f v (g k) z)); auto.
    - intros v g g' k z H. now rewrite (H k).
    - intros v g g' k z H. now rewrite (H k).
    - now apply (uleft_law L EQ u AN strat cx f false false).
    - intros C1 _. apply (uleft_law L EQ u AN strat cx f true false); [exact C1|exact Wt].
    - intros H. pose proof (proj1 (proj2 (proj2 (proj2 (C116_in_place (E := E) (K := K) u strat)))) V X cx f self that e) as T. now rewrite H in T.
  Qed.
  Lemma refused_ext {X} (cx : clos E X X) (f : clos E X bool) g g' (k : list K) : (forall k', g k' = g' k') -> all_refused cx f g k -> all_refused cx f g' k.
  Proof using. intros H R k' w H1 H2. apply (R k' w H1). now rewrite H. Qed.
  Lemma accepted_ext {X} (cx : clos E X X) (f : clos E X bool) g g' (k : list K) : (forall k', g k' = g' k') -> some_accepted cx f g k -> some_accepted cx f g' k.
  Proof using. intros H (k' & w & H1 & H2 & H3). exists k', w. rewrite <- H. auto. Qed.
  Theorem C120_remove_prefix_with {V X} (cx : clos E X X) (f : clos E X bool) (self : rtree K V) (that : rtree K X) gt e :
    WO kcmp self -> WO kcmp that -> mapping that gt ->
    lawful_in_place kcmp false True (fun k v r => remove_entry cx f v gt k r) (fun k v z => v = Some z)
      self that (urt_remove_prefix_with u strat cx f self that e).
  Proof using L EQ AN.
    intros Ws Wt Mt.
    apply (pack false True (remove_entry cx f) (fun v g k z => v = Some z)); auto.
    - intros v g g' k z H. unfold remove_entry. destruct v as [v|]; auto. intros [[H1 H2]|[H1 H2]]; [left|right]; (split; [exact H1|]).
      + now apply (refused_ext cx f g).
      + now apply (accepted_ext cx f g).
    - now apply (uremove_law L EQ u AN strat cx f false false).
    - intros C1 _. apply (uremove_law L EQ u AN strat cx f true false); [exact C1|exact Wt].
    - intros H. pose proof (proj1 (proj2 (proj2 (proj2 (proj2 (C116_in_place (E := E) (K := K) u strat))))) V X cx f self that e) as T. now rewrite H in T.
  Qed.
  Theorem C120_retain_prefix_with {V X} (cx : clos E X X) (f : clos E X bool) (self : rtree K V) (that : rtree K X) gt e :
    WO kcmp self -> WO kcmp that -> mapping that gt ->
    lawful_in_place kcmp false True (fun k v r => retain_entry cx f v gt k r) (fun k v z => v = Some z)
      self that (urt_retain_prefix_with u strat cx f self that e).
  Proof using L EQ AN.
    intros Ws Wt Mt.
    apply (pack false True (retain_entry cx f) (fun v g k z => v = Some z)); auto.
    - intros v g g' k z H. unfold retain_entry. destruct v as [v|]; auto. intros [[H1 H2]|[H1 H2]]; [left|right]; (split; [exact H1|]).
      + now apply (accepted_ext cx f g).
      + now apply (refused_ext cx f g).
    - now apply (uretain_law L EQ u AN strat cx f false false).
    - intros C1 _. apply (uretain_law L EQ u AN strat cx f true false); [exact C1|exact Wt].
    - intros H. pose proof (proj2 (proj2 (proj2 (proj2 (proj2 (C116_in_place (E := E) (K := K) u strat))))) V X cx f self that e) as T. now rewrite H in T.
  Qed.

  (** insert: the given value, cloned, is at the key; all else is as before *)
  Theorem C120_insert {V} (cl : clos E V V) (self : rtree K V) key value e : WO kcmp self ->
    lawful_in_place kcmp false (lt_returns u)
      (fun k v r => (k = key -> exists w, copied cl value w /\ r = Some w) /\ (k <> key -> r = v))
      (fun k v z => v = Some z \/ (k = key /\ copied cl value z))
      self (rt_single key value) (urt_insert u strat cl self key value e).
  Proof using L EQ AN.
    intros Ws.
    assert (C : Canon kcmp (rt_single key value)).
    { unfold Canon, rt_single. cbn [wf fold_right]. repeat split; try discriminate; try constructor. }
    set (gt := lk kcmp (rt_single key value)).
    assert (Mt : mapping (rt_single key value) gt) by (apply lk_mapping; now apply (wf_weaken (kcmp := kcmp))).
    assert (G : forall k, (k = key /\ gt k = Some value) \/ (k <> key /\ gt k = None)).
    { intros k. unfold gt, rt_single. rewrite lk_node. destruct (strip kcmp key k) as [[|c r]|] eqn:Q.
      - apply (strip_iff EQ) in Q. rewrite app_nil_r in Q. now left.
      - apply (strip_iff EQ) in Q. right. split; [|reflexivity]. rewrite Q. intros H. apply (f_equal (@length K)) in H.
        rewrite app_length in H. cbn [length] in H. lia.
      - right. split; [|reflexivity]. intros ->. rewrite (strip_self EQ) in Q. discriminate. }
    assert (D : forall v r, decided cl (insert_clos cl) v value r -> exists w, copied cl value w /\ r = Some w).
    { intros v r (w & e0 & e1 & v' & b & H1 & H2 & H3). unfold insert_clos in H2. destruct (cl e0 w) as [e2 [w1|]] eqn:Qc; [|discriminate].
      injection H2 as <- <- <-. exists w1. split; [|exact H3]. clear -H1 Qc. induction H1 as [w|w w0 w' e3 e4 H H1 IH].
      - exists e0, e2, w1. split; [exact Qc|constructor].
      - specialize (IH Qc). destruct IH as (e5 & e6 & w2 & I1 & I2). exists e3, e4, w0. split; [exact H|]. econstructor; eauto. }
    assert (T : forall v z, touched cl (insert_clos cl) v value z -> z = v \/ copied cl value z).
    { intros v z (w & e0 & e1 & r & H1 & H2). destruct r as [b|].
      - right. destruct (D v (if b then Some z else None)) as (w1 & D1 & D2).
        + exists w, e0, e1, z, b. auto.
        + unfold insert_clos in H2. destruct (cl e0 w) as [e2 [w2|]]; [|discriminate]. injection H2 as <- <- <-. now injection D2 as <-.
      - left. unfold insert_clos in H2. destruct (cl e0 w) as [e2 [w2|]]; [discriminate|]. now injection H2. }
    intros gs Ms.
    pose proof (C120_outer_combine_with cl (insert_clos cl) self (rt_single key value) gt e Ws (wf_weaken _ C) Mt gs Ms) as H.
    unfold urt_insert. destruct (urt_outer_combine_with u strat cl (insert_clos cl) self (rt_single key value) e) as [[t e']|[t e']|]; [| |exact H].
    - destruct H as (H1 & H2 & g & H3 & H4). split; [exact H1|]. split; [intros C1 _; now apply H2|]. exists g. split; [exact H3|].
      intros k. specialize (H4 k). destruct (G k) as [[Qk Gk]|[Qk Gk]]; rewrite Gk in H4; (split; [intros Hk|intros Hk]); try congruence.
      + unfold outer_entry in H4. destruct (gs k) as [v|]; [now apply (D v)|exact H4].
      + unfold outer_entry in H4. destruct (gs k); auto.
    - intros O. destruct (H O) as [H1 H2]. split; [exact H1|]. intros k z Hz. specialize (H2 k z Hz).
      destruct (G k) as [[Qk Gk]|[Qk Gk]]; rewrite Gk in H2; unfold outer_rest in H2.
      + destruct (gs k) as [v|]; [|right; auto]. destruct H2 as [->|H2]; [now left|]. apply T in H2 as [->|H2]; [now left|right; auto].
      + destruct (gs k) as [v|]; [left; now rewrite H2|destruct H2].
  Qed.
End C120.

(** ** A panicking [<] *)
(** the comparisons of the numbers; [<] panics while the world says so *)
Definition shaky : ucode bool nat :=
  Ucode (fun e p => (e, Ret (fst p =? snd p))) (fun e p => (e, Ret (Nat.compare (fst p) (snd p))))
        (fun (e : bool) p => (e, if e then Throw else Ret (fst p <? snd p))).
Example shaky_answers : answers_like Nat.compare shaky.
Proof.
  constructor.
  - intros e x y e' b [= _ <-]. destruct (Nat.compare_spec x y); [now apply Nat.eqb_eq|apply Nat.eqb_neq; lia..].
  - now intros e x y e' c [= _ <-].
  - intros e x y e' b. cbn [u_lt shaky]. destruct e; intros [= _ <-]. cbn [fst snd]. destruct (Nat.compare_spec x y); [apply Nat.ltb_ge; lia|now apply Nat.ltb_lt|apply Nat.ltb_ge; lia].
Qed.
(** the hypothesis [lt_returns] cannot be dropped: an [insert] into a canonical tree whose [<] panics once leaves a tree in
    which an entry that was there before, and still is, cannot be found any more, by comparisons that no longer panic *)
Theorem C120_panicking_lt_hides_an_entry :
  exists (self t : rtree nat nat) (key : list nat) v,
    Canon Nat.compare self /\ (exists w, urt_get shaky self key false = Some (w, Ret (Some v))) /\
    urt_insert shaky (fun _ _ => true) (fun e v => (e, Ret v)) self [1] 10 true = Unwound (t, true) /\
    has t key v /\ ~ WO Nat.compare t /\ urt_get shaky t key false = Some (false, Ret None).
Proof.
  exists (Node [2] (Some 20) []), (Node [] None [Node [2] (Some 20) []; Node [1] (Some 10) []]), [2], 20. split; [|split; [|split; [|split; [|split]]]].
  - unfold Canon. cbn [wf fold_right]. repeat split; try discriminate; try constructor.
  - exists false. vm_compute. reflexivity.
  - vm_compute. reflexivity.
  - change [2] with ([] ++ [2]). apply has_child with (c := Node [2] (Some 20) []); [now left|]. apply has_here.
  - unfold WO. cbn [wf]. intros (_ & S1 & _). inversion S1 as [|? ? _ F]. inversion F as [|? ? F1]. discriminate.
  - vm_compute. reflexivity.
Qed.

(** ** Witnesses *)
(** comparisons and clones count down and panic when the count is used up *)
Definition counted {X Y} (g : X -> Y) : clos nat X Y := fun e x => match e with 0 => (0, Throw) | S e' => (e', Ret (g x)) end.
Definition counted_code : ucode nat nat :=
  Ucode (counted (fun p => fst p =? snd p)) (counted (fun p => Nat.compare (fst p) (snd p))) (fun e p => (e, Ret (fst p <? snd p))).
Example counted_answers : answers_like Nat.compare counted_code /\ lt_returns counted_code.
Proof.
  split; [constructor|now intros e x y].
  - intros e x y e' b. cbn [u_eq counted_code]. unfold counted. destruct e; [discriminate|]. intros [= _ <-]. cbn [fst snd].
    destruct (Nat.compare_spec x y); [now apply Nat.eqb_eq|apply Nat.eqb_neq; lia..].
  - intros e x y e' c. cbn [u_cmp counted_code]. unfold counted. destruct e; [discriminate|]. now intros [= _ <-].
  - intros e x y e' b. cbn [u_lt counted_code]. intros [= _ <-]. cbn [fst snd]. destruct (Nat.compare_spec x y); [apply Nat.ltb_ge; lia|now apply Nat.ltb_lt|apply Nat.ltb_ge; lia].
Qed.
(** a clone that changes the value, so that copies are told apart *)
Definition marking : clos nat nat nat := counted (fun v => v + 1000).
Definition adding : mclos nat nat nat := fun e v x => (e, v + x, Ret true).
Definition wa : rtree nat nat := Node [] None [Node [1] (Some 1) [Node [2] (Some 12) []]; Node [3] (Some 3) []].
Definition wb : rtree nat nat := Node [] None [Node [1; 2; 3] (Some 123) []; Node [3] (Some 30) []; Node [4; 5] (Some 45) []].
Example w120_trees : Canon Nat.compare wa /\ Canon Nat.compare wb.
Proof.
  unfold Canon, wa, wb. cbn [wf fold_right]. repeat split; try discriminate; repeat constructor; discriminate.
Qed.
(** with enough calls it returns; with fewer it panics and part of the entries is left *)
Example w120_runs :
  urt_outer_combine_with counted_code (fun _ _ => true) marking adding wa wb 40 =
    Done (Node [] None [Node [1] (Some 1) [Node [2] (Some 12) [Node [3] (Some 3123) []]]; Node [3] (Some 33) []; Node [4; 5] (Some 1045) []], 30) /\
  urt_outer_combine_with counted_code (fun _ _ => true) marking adding wa wb 9 =
    Unwound (Node [] None [Node [1] (Some 1) [Node [2] (Some 12) [Node [3] (Some 3123) []]]; Node [3] (Some 33) []], 0).
Proof. vm_compute. split; reflexivity. Qed.
Print Assumptions C120_outer_combine_with.
Print Assumptions C120_inner_combine_with.
Print Assumptions C120_left_combine_with.
Print Assumptions C120_remove_prefix_with.
Print Assumptions C120_retain_prefix_with.
Print Assumptions C120_insert.
Print Assumptions C120_panicking_lt_hides_an_entry.

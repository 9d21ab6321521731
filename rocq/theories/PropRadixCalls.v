(** C114, C115: the work that is counted is the number of calls of user code. *)
From Verif Require Import RadixUserPlain.
From Verif Require Export RadixWorkTie.

(** closures without effects, run by the model of C116 *)
Definition mpure {V X} (f : V -> X -> V * bool) : mclos work V X := fun e v w => (e, fst (f v w), Ret (snd (f v w))).
Definition cpure {X Y} (f : X -> Y) : clos work X Y := fun e x => (e, Ret (f x)).

Section Calls.
  Context {K V X : Type} (kcmp : K -> K -> comparison) (strat : nat -> nat -> bool) (L : OrdLaws kcmp).
  Notation code := (count_code kcmp). Notation clone := (count_clone).
  Lemma work_eq (e w e' : work) : agree true e w e' -> e' = wadd e w.
  Proof using. intros (A1 & A2). specialize (A2 eq_refl). destruct e' as [i j]. unfold wadd. cbn [w_cmp w_copy] in *. now subst. Qed.
  Lemma does_eq {Y} e (r : tally Y) g t w : does true e r g -> r = (Ok t, w) -> g = Done (t, wadd e w).
  Proof using. intros H ->. destruct (H t eq_refl) as (e' & -> & A). now rewrite (work_eq _ _ _ A). Qed.
  Lemma gives_eq {Y} e (r : tally Y) g t w : gives true e r g -> r = (Ok t, w) -> g = Some (wadd e w, Ret t).
  Proof using. intros H ->. destruct (H t eq_refl) as (e' & -> & A). now rewrite (work_eq _ _ _ A). Qed.
  Lemma mpure_follows {V' X'} ex (f : V' -> X' -> V' * bool) : follows_f ex f (mpure f).
  Proof using. intros e v w. exists e. split; [reflexivity|apply agree_0]. Qed.

  (** run with comparisons and clones that count their calls in [e], every operation adds exactly the work of C114 and C115 *)
  Theorem C114_counts_are_calls (fo : V -> V -> V * bool) (fi : V -> X -> V * bool) (fp : X -> bool)
      (po : V -> V -> option V) (pi : V -> X -> option V) (pl : V -> option X -> option V) (a b : rtree K V) (c : rtree K X) (e : work) :
    (forall t w, krt_outer_combine_with kcmp strat fo a b = (Ok t, w) ->
       urt_outer_combine_with code strat clone (mpure fo) a b e = Done (t, wadd e w)) /\
    (forall t w, krt_inner_combine_with kcmp strat fi a c = (Ok t, w) ->
       urt_inner_combine_with code strat clone (mpure fi) a c e = Done (t, wadd e w)) /\
    (forall t w, krt_left_combine_with kcmp strat fi a c = (Ok t, w) ->
       urt_left_combine_with code strat clone (mpure fi) a c e = Done (t, wadd e w)) /\
    (forall t w, krt_remove_prefix_with kcmp strat fp a c = (Ok t, w) ->
       urt_remove_prefix_with code strat clone (cpure fp) a c e = Done (t, wadd e w)) /\
    (forall t w, krt_retain_prefix_with kcmp strat fp a c = (Ok t, w) ->
       urt_retain_prefix_with code strat clone (cpure fp) a c e = Done (t, wadd e w)) /\
    (forall t w, krt_outer_combine kcmp strat po a b = (Ok t, w) ->
       urt_outer_combine code strat clone (cpure (fun p => po (fst p) (snd p))) a b e = Some (wadd e w, Ret t)) /\
    (forall t w, krt_inner_combine kcmp strat pi a c = (Ok t, w) ->
       urt_inner_combine code strat clone clone (cpure (fun p => pi (fst p) (snd p))) a c e = Some (wadd e w, Ret t)) /\
    (forall t w, krt_left_combine kcmp strat pl a c = (Ok t, w) ->
       urt_left_combine code strat clone clone (cpure (fun p => pl (fst p) (snd p))) a c e = Some (wadd e w, Ret t)) /\
    (forall t w, krt_intersects kcmp strat a c = (Ok t, w) -> urt_intersects code strat a c e = Some (wadd e w, Ret t)) /\
    (forall t w, krt_is_subset kcmp strat a c = (Ok t, w) -> urt_is_subset code strat a c e = Some (wadd e w, Ret t)).
  Proof using L.
    split; [|split; [|split; [|split; [|split; [|split; [|split; [|split; [|split]]]]]]]]; intros t w.
    - apply does_eq. apply uouter_with_does; [exact L|apply mpure_follows].
    - apply does_eq. apply uinner_with_does, mpure_follows.
    - apply does_eq. apply uleft_with_does, mpure_follows.
    - apply does_eq. now apply uremove_with_does.
    - apply does_eq. now apply uretain_with_does.
    - apply gives_eq. now apply uouter_gives.
    - apply gives_eq. now apply uinner_gives.
    - apply gives_eq. now apply uleft_gives.
    - apply gives_eq. apply uintersects_gives.
    - apply gives_eq. apply uis_subset_gives.
  Qed.
  (** [insert] also clones in its own closure (mod.rs:261-266): its comparisons are exactly those counted *)
  Theorem C114_insert_calls (t : rtree K V) key v e t' w : krt_insert kcmp strat t key v = (Ok t', w) ->
    exists e', urt_insert code strat clone t key v e = Done (t', e') /\ w_cmp e' = w_cmp e + w_cmp w.
  Proof using L.
    intros Q. assert (F : follows_f false (fun _ b : V => (b, true)) (insert_clos (E := work) clone)).
    { intros e0 x y. eexists. split; [reflexivity|]. split; [|discriminate]. cbn [wadd wk0 w_cmp]. lia. }
    pose proof (uouter_with_does kcmp strat L false (fun _ b : V => (b, true)) _ F (S (t_size t + t_size (rt_single key v))) t (rt_single key v) e) as D.
    unfold krt_insert, krt_outer_combine_with in Q. unfold urt_insert, urt_outer_combine_with. rewrite Q in D. destruct (D t' eq_refl) as (e' & -> & (A & _)). eauto.
  Qed.
End Calls.

(** ** Witnesses *)
Definition ctree : rtree nat nat := Node [] (Some 1) [Node [1; 2] (Some 12) [Node [3] (Some 123) []]; Node [4] (Some 40) []].
Definition ctree' : rtree nat nat := Node [] None [Node [1; 2; 3] (Some 9) []; Node [5] (Some 50) []].
Example counted_calls :
  krt_outer_combine Nat.compare (fun _ _ => true) (fun v w => Some (v + w)) ctree ctree' =
    (Ok (Node [] (Some 1) [Node [1; 2] (Some 12) [Node [3] (Some 132) []]; Node [4] (Some 40) []; Node [5] (Some 50) []]), Work 6 5) /\
  urt_outer_combine (count_code Nat.compare) (fun _ _ => true) count_clone (cpure (fun p => Some (fst p + snd p))) ctree ctree' (Work 100 1000) =
    Some (Work 106 1005, Ret (Node [] (Some 1) [Node [1; 2] (Some 12) [Node [3] (Some 132) []]; Node [4] (Some 40) []; Node [5] (Some 50) []])).
Proof. vm_compute. split; reflexivity. Qed.
Example counted_insert : exists t w, krt_insert Nat.compare (fun _ _ => false) ctree [1; 2; 3] 7 = (Ok t, w) /\ w_cmp w = 6.
Proof. eexists _, _. vm_compute. split; reflexivity. Qed.
Print Assumptions C114_counts_are_calls.
Print Assumptions C114_insert_calls.

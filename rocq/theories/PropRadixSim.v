(** Property C148: programs over radix trees do what the same programs over sorted maps do. *)
From Verif Require Import VecMapHist PropSet PropMap RadixReach PropRadix PropRadixAlgebra PropRadixAsMap PropRadixAsMap2.

(** A program works on variables 0, 1, 2, ...; every variable starts as the empty map. *)
Inductive kcmd (K V : Type) :=
| KCollect (dst : nat) (items : list (list K * V))            (* dst := items.collect() *)
| KInsert (x : nat) (k : list K) (v : V)                      (* x.insert(k, v) *)
| KOuter (dst a b : nat) (f : V -> V -> option V)             (* dst := outer combination of a and b *)
| KOuterWith (a b : nat) (f : V -> V -> V * bool)             (* the same in place, into a *)
| KInner (dst a b : nat) (f : V -> V -> option V)
| KInnerWith (a b : nat) (f : V -> V -> V * bool)
| KLeftWith (a b : nat) (f : V -> V -> V * bool)
| KFilter (dst a : nat) (p : list K)                          (* dst := the entries of a below p *)
| KPrepend (x : nat) (p : list K)
| KRemovePrefixes (a b : nat) (f : V -> bool)                 (* a.remove_prefix_with(b, f) *)
| KRetainPrefixes (a b : nat) (f : V -> bool)
| KGet (x : nat) (k : list K)
| KEq (a b : nat)
| KIter (x : nat)
| KScan (x : nat) (p : list K).
Arguments KCollect {K V}. Arguments KInsert {K V}. Arguments KOuter {K V}. Arguments KOuterWith {K V}.
Arguments KInner {K V}. Arguments KInnerWith {K V}. Arguments KLeftWith {K V}. Arguments KFilter {K V}.
Arguments KPrepend {K V}. Arguments KRemovePrefixes {K V}. Arguments KRetainPrefixes {K V}. Arguments KGet {K V}.
Arguments KEq {K V}. Arguments KIter {K V}. Arguments KScan {K V}.

(** what a command shows *)
Inductive kout (K V : Type) := ONothing | OValue (o : option V) | OBool (b : bool) | OEntries (l : list (list K * V)).
Arguments ONothing {K V}. Arguments OValue {K V}. Arguments OBool {K V}. Arguments OEntries {K V}.

Definition get_ok {X} (r : res X) : option X := match r with Ok x => Some x | _ => None end.
Definition get_done {X} (r : done (X * unit)) : option X := match r with Done (x, _) => Some x | _ => None end.
Definition to {X O} (i : nat) (st : nat -> X) (o : O) (r : option X) : option ((nat -> X) * O) :=
  match r with Some x => Some (upd st i x, o) | None => None end.
Definition show {S X O} (st : S) (o : X -> O) (r : option X) : option (S * O) :=
  match r with Some x => Some (st, o x) | None => None end.

Section Programs.
  Context {K V : Type} (kcmp : K -> K -> comparison) (veqb : V -> V -> bool) (strat strat' : nat -> nat -> bool).

  (** on radix trees. [None]: some command panicked *)
  Definition tree_step (st : nat -> rtree K V) (c : kcmd K V) : option ((nat -> rtree K V) * kout K V) :=
    match c with
    | KCollect d items => to d st ONothing (get_ok (rt_from_iter kcmp strat items))
    | KInsert x k v => to x st ONothing (get_ok (rt_insert kcmp strat (st x) k v))
    | KOuter d a b f => to d st ONothing (get_ok (rt_outer_combine kcmp strat f (st a) (st b)))
    | KOuterWith a b f => to a st ONothing (get_ok (rt_outer_combine_with kcmp strat f (st a) (st b)))
    | KInner d a b f => to d st ONothing (get_ok (rt_inner_combine kcmp strat f (st a) (st b)))
    | KInnerWith a b f => to a st ONothing (get_ok (rt_inner_combine_with kcmp strat f (st a) (st b)))
    | KLeftWith a b f => to a st ONothing (get_ok (rt_left_combine_with kcmp strat f (st a) (st b)))
    | KFilter d a p => to d st ONothing (get_ok (rt_filter_prefix kcmp (st a) p))
    | KPrepend x p => to x st ONothing (Some (rt_prepend (st x) p))
    | KRemovePrefixes a b f => to a st ONothing (get_ok (rt_remove_prefix_with kcmp strat f (st a) (st b)))
    | KRetainPrefixes a b f => to a st ONothing (get_ok (rt_retain_prefix_with kcmp strat f (st a) (st b)))
    | KGet x k => show st OValue (get_ok (rt_get kcmp (st x) k))
    | KEq a b => Some (st, OBool (rt_eqb kcmp veqb (st a) (st b)))
    | KIter x => show st OEntries (get_ok (rt_iter (st x)))
    | KScan x p => show st OEntries (get_ok (rt_scan_prefix kcmp (st x) p))
    end.

  (** on VecMaps with lexicographically ordered keys; [starts p k]: does [k] start with [p]? *)
  Context (starts : list K -> list K -> bool).
  Notation lcmp := (lex kcmp).
  Definition map_outer (g : V -> V -> option V) (a b : list (list K * V)) :=
    get_done (vmap_outer_join lcmp strat' (pure_clos (fun x : ojarg (list K) V V =>
      match x with OJLeft _ v => Some v | OJRight _ w => Some w | OJBoth _ v w => g v w end)) a b tt).
  Definition map_inner (g : V -> V -> option V) (a b : list (list K * V)) :=
    get_done (vmap_inner_join lcmp strat' (pure_clos (fun '(_, v, w) => g v w)) a b tt).
  Definition map_left (g : V -> V -> option V) (a b : list (list K * V)) :=
    get_done (vmap_left_join lcmp strat' (pure_clos (fun '(_, v, o) => match o with Some w => g v w | None => Some v end)) a b tt).
  Definition below (f : V -> bool) (b : list (list K * V)) (k : list K) : bool := existsb (fun '(p, w) => f w && starts p k) b.

  Definition map_step (st : nat -> list (list K * V)) (c : kcmd K V) : option ((nat -> list (list K * V)) * kout K V) :=
    match c with
    | KCollect d items => to d st ONothing (vmap_from_iter lcmp items)
    | KInsert x k v => to x st ONothing (option_map fst (get_ok (vmap_insert lcmp (st x) k v)))
    | KOuter d a b f => to d st ONothing (map_outer f (st a) (st b))
    | KOuterWith a b f => to a st ONothing (map_outer (kept_value f) (st a) (st b))
    | KInner d a b f => to d st ONothing (map_inner f (st a) (st b))
    | KInnerWith a b f => to a st ONothing (map_inner (kept_value f) (st a) (st b))
    | KLeftWith a b f => to a st ONothing (map_left (kept_value f) (st a) (st b))
    | KFilter d a p => to d st ONothing (Some (vmap_retain (st a) (fun '(k, _) => starts p k)))
    | KPrepend x p => to x st ONothing (Some (map (fun '(k, v) => (p ++ k, v)) (st x)))
    | KRemovePrefixes a b f => to a st ONothing (Some (vmap_retain (st a) (fun '(k, _) => negb (below f (st b) k))))
    | KRetainPrefixes a b f => to a st ONothing (Some (vmap_retain (st a) (fun '(k, _) => below f (st b) k)))
    | KGet x k => Some (st, OValue (vmap_get lcmp (st x) k))
    | KEq a b => Some (st, OBool (vmap_eqb lcmp veqb (st a) (st b)))
    | KIter x => Some (st, OEntries (st x))
    | KScan x p => Some (st, OEntries (filter (fun '(k, _) => starts p k) (st x)))
    end.

  Fixpoint exec {S C O} (step : S -> C -> option (S * O)) (st : S) (cs : list C) : option (S * list O) :=
    match cs with
    | [] => Some (st, [])
    | c :: cs' => match step st c with
                  | None => None
                  | Some (st', o) => match exec step st' cs' with Some (s, os) => Some (s, o :: os) | None => None end
                  end
    end.
End Programs.

Section Simulation.
  Context {K V : Type} {kcmp : K -> K -> comparison} (L : OrdLaws kcmp) (E : OrdEq kcmp)
    (veqb : V -> V -> bool) (strat strat' : nat -> nat -> bool) (starts : list K -> list K -> bool)
    (ST : forall p k, starts p k = true <-> exists s, k = p ++ s).
  Definition shows (t : rtree K V) (l : list (list K * V)) : Prop := Canon kcmp t /\ rt_iter t = Ok l.

  Lemma set_shows (st : nat -> rtree K V) m d t l (o : kout K V) : (forall x, shows (st x) (m x)) -> shows t l ->
    exists st' m', to d st o (Some t) = Some (st', o) /\ to d m o (Some l) = Some (m', o) /\ forall x, shows (st' x) (m' x).
  Proof.
    intros H S. do 2 eexists. split; [reflexivity|]. split; [reflexivity|]. intros x. unfold upd. now destruct (Nat.eqb _ _).
  Qed.
  Lemma step_sim st m c : (forall x, shows (st x) (m x)) ->
    exists st' m' o, tree_step kcmp veqb strat st c = Some (st', o) /\ map_step kcmp veqb strat' starts m c = Some (m', o) /\
      forall x, shows (st' x) (m' x).
  Proof.
    intros H.
    assert (G : forall d r r', (exists t l, get_ok r = Some t /\ r' = Some l /\ shows t l) ->
      exists st' m' o, to d st (@ONothing K V) (get_ok r) = Some (st', o) /\ to d m ONothing r' = Some (m', o) /\ forall x, shows (st' x) (m' x)).
    { intros d r r' (t & l & -> & -> & S). destruct (set_shows st m d t l ONothing H S) as (st' & m' & Q1 & Q2 & S'). eauto 6. }
    assert (W : forall x, WO kcmp (st x)) by (intros x; apply canon_WO, H).
    assert (P : forall x y, (forall p, rt_scan_prefix kcmp (st x) p = Ok (filter (fun '(k, _) => starts p k) (m x))) /\
      (forall p, exists t, rt_filter_prefix kcmp (st x) p = Ok t /\ Canon kcmp t /\
         rt_iter t = Ok (filter (fun '(k, _) => starts p k) (m x))) /\
      (forall p, Canon kcmp (rt_prepend (st x) p) /\ rt_iter (rt_prepend (st x) p) = Ok (map (fun '(k, v) => (p ++ k, v)) (m x))) /\
      (forall f : V -> bool,
         (exists t, rt_remove_prefix_with kcmp strat f (st x) (st y) = Ok t /\ Canon kcmp t /\
            rt_iter t = Ok (filter (fun '(k, _) => negb (below starts f (m y) k)) (m x))) /\
         (exists t, rt_retain_prefix_with kcmp strat f (st x) (st y) = Ok t /\ Canon kcmp t /\
            rt_iter t = Ok (filter (fun '(k, _) => below starts f (m y) k) (m x))))).
    { intros x y. destruct (C147_prefix_operations K V V kcmp strat starts (st x) (st y) L E ST (proj1 (H x)) (proj1 (H y)))
        as (la & lb & Qa & _ & Qb & _ & F). rewrite (proj2 (H x)) in Qa. rewrite (proj2 (H y)) in Qb.
      injection Qa as <-. injection Qb as <-. exact F. }
    destruct c; cbn [tree_step map_step].
    - apply G. destruct (C144_collect K V kcmp strat items L E) as (t & l & -> & C & Q & ->). exists t, l. now repeat split.
    - apply G. destruct (C144_insert_and_filter K V kcmp strat (st x) L E (proj1 (H x))) as (la & Qa & _ & I & _).
      rewrite (proj2 (H x)) in Qa. injection Qa as <-. destruct (I k v) as (t & l & old & -> & C & Q & ->). exists t, l. now repeat split.
    - destruct (C144_combinations_are_joins K V kcmp strat strat' (st a) (st b) L E (proj1 (H a)) (proj1 (H b)))
        as (la & lb & Qa & _ & Qb & _ & J). rewrite (proj2 (H a)) in Qa. rewrite (proj2 (H b)) in Qb. injection Qa as <-. injection Qb as <-.
      cbv zeta in J. destruct J as (J & _). destruct (J f) as (t & l & Q & Ql & Qv).
      destruct (C48_outer_combine L E strat f (st a) (st b) (W a) (W b)) as (t' & Q' & _ & C & _).
      apply G. exists t, l. rewrite Q. unfold map_outer. rewrite Qv. repeat split; auto.
      replace t with t' by congruence. apply C; apply H.
    - destruct (C144_combinations_are_joins K V kcmp strat strat' (st a) (st b) L E (proj1 (H a)) (proj1 (H b)))
        as (la & lb & Qa & _ & Qb & _ & J). rewrite (proj2 (H a)) in Qa. rewrite (proj2 (H b)) in Qb. injection Qa as <-. injection Qb as <-.
      cbv zeta in J. destruct J as (_ & J & _). destruct (J f) as (t & l & Q & Ql & Qv).
      destruct (C48_outer_combine_with L E strat f (st a) (st b) (W a) (W b)) as (t' & Q' & _ & C & _).
      apply G. exists t, l. rewrite Q. unfold map_outer. rewrite Qv. repeat split; auto.
      replace t with t' by congruence. apply C; apply H.
    - destruct (C144_combinations_are_joins K V kcmp strat strat' (st a) (st b) L E (proj1 (H a)) (proj1 (H b)))
        as (la & lb & Qa & _ & Qb & _ & J). rewrite (proj2 (H a)) in Qa. rewrite (proj2 (H b)) in Qb. injection Qa as <-. injection Qb as <-.
      cbv zeta in J. destruct J as (_ & _ & J & _). destruct (J f) as (t & l & Q & Ql & Qv).
      destruct (C49_inner_combine L E strat f (st a) (st b) (W a) (W b)) as (t' & Q' & _ & C & _).
      apply G. exists t, l. rewrite Q. unfold map_inner. rewrite Qv. repeat split; auto.
      replace t with t' by congruence. apply C; apply H.
    - destruct (C144_combinations_are_joins K V kcmp strat strat' (st a) (st b) L E (proj1 (H a)) (proj1 (H b)))
        as (la & lb & Qa & _ & Qb & _ & J). rewrite (proj2 (H a)) in Qa. rewrite (proj2 (H b)) in Qb. injection Qa as <-. injection Qb as <-.
      cbv zeta in J. destruct J as (_ & _ & _ & J & _). destruct (J f) as (t & l & Q & Ql & Qv).
      destruct (C49_inner_combine_with L E strat f (st a) (st b) (W a) (W b)) as (t' & Q' & _ & C & _).
      apply G. exists t, l. rewrite Q. unfold map_inner. rewrite Qv. repeat split; auto.
      replace t with t' by congruence. apply C; apply H.
    - destruct (C144_combinations_are_joins K V kcmp strat strat' (st a) (st b) L E (proj1 (H a)) (proj1 (H b)))
        as (la & lb & Qa & _ & Qb & _ & J). rewrite (proj2 (H a)) in Qa. rewrite (proj2 (H b)) in Qb. injection Qa as <-. injection Qb as <-.
      cbv zeta in J. destruct J as (_ & _ & _ & _ & J). destruct (J f) as (t & l & Q & Ql & Qv).
      destruct (C50_left_combine_with L E strat f (st a) (st b) (W a) (W b)) as (t' & Q' & _ & C & _).
      apply G. exists t, l. rewrite Q. unfold map_left. rewrite Qv. repeat split; auto.
      replace t with t' by congruence. apply C; apply H.
    - apply G. destruct (P a a) as (_ & F & _). destruct (F p) as (t & -> & C & Q).
      do 2 eexists. split; [reflexivity|]. split; [reflexivity|]. now split.
    - destruct (P x x) as (_ & _ & F & _). destruct (F p) as (C & Q).
      destruct (set_shows st m x (rt_prepend (st x) p) _ ONothing H (conj C Q)) as (st' & m' & Q1 & Q2 & S). eauto 6.
    - apply G. destruct (P a b) as (_ & _ & _ & F). destruct (F f) as ((t & -> & C & Q) & _).
      do 2 eexists. split; [reflexivity|]. split; [reflexivity|]. now split.
    - apply G. destruct (P a b) as (_ & _ & _ & F). destruct (F f) as (_ & (t & -> & C & Q)).
      do 2 eexists. split; [reflexivity|]. split; [reflexivity|]. now split.
    - destruct (C144_queries K V kcmp veqb (st x) (st x) L E (proj1 (H x)) (proj1 (H x))) as (la & lb & Qa & _ & _ & _ & F & _).
      rewrite (proj2 (H x)) in Qa. injection Qa as <-. rewrite F. exists st, m. eexists. repeat split; apply H.
    - destruct (C144_queries K V kcmp veqb (st a) (st b) L E (proj1 (H a)) (proj1 (H b))) as (la & lb & Qa & _ & Qb & _ & _ & F).
      rewrite (proj2 (H a)) in Qa. rewrite (proj2 (H b)) in Qb. injection Qa as <-. injection Qb as <-. rewrite F.
      exists st, m. eexists. repeat split; apply H.
    - rewrite (proj2 (H x)). exists st, m. eexists. repeat split; apply H.
    - destruct (P x x) as (F & _). rewrite F. exists st, m. eexists. repeat split; apply H.
  Qed.
  Lemma exec_sim cs : forall st m, (forall x, shows (st x) (m x)) ->
    exists st' m' os, exec (tree_step kcmp veqb strat) st cs = Some (st', os) /\
      exec (map_step kcmp veqb strat' starts) m cs = Some (m', os) /\ forall x, shows (st' x) (m' x).
  Proof.
    induction cs as [|c cs IH]; intros st m H; cbn [exec].
    - exists st, m, []. auto.
    - destruct (step_sim st m c H) as (st1 & m1 & o & -> & -> & H1).
      destruct (IH st1 m1 H1) as (st2 & m2 & os & -> & -> & H2). exists st2, m2, (o :: os). auto.
  Qed.
End Simulation.

Theorem C148_programs_agree :
  forall (K V : Type) (kcmp : K -> K -> comparison) (veqb : V -> V -> bool) (strat strat' : nat -> nat -> bool)
    (starts : list K -> list K -> bool) (cs : list (kcmd K V)),
    OrdLaws kcmp -> OrdEq kcmp -> (forall p k, starts p k = true <-> exists s, k = p ++ s) ->
    exists trees maps outs,
      exec (tree_step kcmp veqb strat) (fun _ => rt_empty) cs = Some (trees, outs) /\
      exec (map_step kcmp veqb strat' starts) (fun _ => []) cs = Some (maps, outs) /\
      forall x, rt_iter (trees x) = Ok (maps x).
Proof.
  intros K V kcmp veqb strat strat' starts cs L E ST.
  destruct (exec_sim L E veqb strat strat' starts ST cs (fun _ => rt_empty) (fun _ => [])) as (st & m & os & Q1 & Q2 & H).
  - intros x. split; [apply empty_canon|reflexivity].
  - exists st, m, os. split; [exact Q1|]. split; [exact Q2|]. intros x. apply H.
Qed.
Print Assumptions C148_programs_agree.

Definition demo_kcmds : list (kcmd nat nat) :=
  [KCollect 0 [([1;2;3], 11); ([1], 5); ([2;2], 7)]; KInsert 0 [1;2;4] 20; KCollect 1 [([1;2], 2); ([1;2;4], 1)];
   KGet 0 [1;2]; KOuter 2 0 1 (fun v w => Some (v + w)); KIter 2; KInnerWith 2 1 (fun v w => (v + w, Nat.odd (v + w) || Nat.ltb v 5)); KIter 2;
   KRetainPrefixes 0 1 Nat.even; KIter 0; KScan 0 [1;2;4]; KEq 0 1; KPrepend 1 [7]; KIter 1].
Definition nat_starts (p k : list nat) : bool := match strip Nat.compare p k with Some _ => true | None => false end.
Example C148_witness :
  (forall p k, nat_starts p k = true <-> exists s, k = p ++ s) /\
  option_map snd (exec (tree_step Nat.compare Nat.eqb alt) (fun _ => rt_empty) demo_kcmds) =
  option_map snd (exec (map_step Nat.compare Nat.eqb alt nat_starts) (fun _ => []) demo_kcmds) /\
  option_map snd (exec (tree_step Nat.compare Nat.eqb alt) (fun _ => rt_empty) demo_kcmds) =
    Some [ONothing; ONothing; ONothing; OValue None; ONothing;
          OEntries [([1], 5); ([1;2], 2); ([1;2;3], 11); ([1;2;4], 21); ([2;2], 7)]; ONothing; OEntries [([1;2], 4)];
          ONothing; OEntries [([1;2;3], 11); ([1;2;4], 20)]; OEntries [([1;2;4], 20)]; OBool false; ONothing;
          OEntries [([7;1;2], 2); ([7;1;2;4], 1)]].
Proof.
  split; [exact (proj1 C147_witness)|]. split; vm_compute; reflexivity.
Qed.

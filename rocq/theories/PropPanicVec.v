(** C138: a panic in the user code that a VecSet, VecMap, TotalVecSet or TotalVecMap operation runs reaches the caller,
    no user code runs after it, and these operations have no panics of their own. *)
From Verif Require Import RetainModel PropRetain PropTotalUser VecUserSpec VecUserBlame CloneModel TotalUserModel VecUserModel PropVecUser PropRadixUser PanicVec PropPanic.

(** ** Specification, with [all_returned], [last_panicked] and [records] of PropPanic.v *)
Section Spec.
  Context {E : Type} (log : E -> list bool).
  (** the call returns exactly if all user code did; it panics only because the last user code it called panicked *)
  Definition ends {Y} (e : E) (r : done (Y * E)) : Prop :=
    match r with
    | Done (_, e') => all_returned log e e'
    | Unwound (_, e') => last_panicked log e e'
    | DoneNoFuel => False
    end.
  Definition ends_b {Y} (e : E) (r : option (E * cres Y)) : Prop :=
    match r with
    | Some (e', Ret _) => all_returned log e e'
    | Some (e', Throw) => last_panicked log e e'
    | None => False
    end.
End Spec.

(** ** Links *)
Lemma calm_threw {E X Y} (f : clos E X Y) e : calm f -> threw f e -> False.
Proof. intros C (e0 & x & H). apply (C e0 x). now rewrite H. Qed.
Lemma blames_none {E X} (G : E -> Prop) (o : done (X * E)) : (forall e, G e -> False) -> blames G o -> blames (fun _ => False) o.
Proof. intros H. destruct o as [|[r e]|]; cbn; eauto. Qed.
Section Links.
  Context {E : Type} (log : E -> list bool) (e0 : E).
  Notation Q := (all_returned log e0).
  Notation T := (last_panicked log e0).
  Lemma trd_ends {X} (r r' : done (X * E)) : trd Q T r r' -> blames (fun _ => False) r' -> r <> DoneNoFuel -> ends log e0 r.
  Proof.
    destruct r as [[x e]|[x e]|]; cbn [trd ends]; [tauto| |congruence].
    intros [H|[H ->]] B _; [exact H|destruct B].
  Qed.
  Lemma merges_ends {A B R W a b} (o : done (list R * E)) : merges (A := A) (B := B) W a b o -> o <> DoneNoFuel.
  Proof. intros H ->. exact H. Qed.
  Lemma utag_ends {X} n n0 (r : done (list X * E)) : ends log e0 r -> ends log e0 (utag n n0 r).
  Proof. now destruct r as [[l e]|[l e]|]. Qed.
  (** simple sequences *)
  Definition one {Y} (r : E * cres Y) : Prop := match r with (e, Ret _) => Q e | (e, Throw) => T e end.
  Lemma one_call {X Y} (f f' : clos E X Y) e x : fine Q T f f' -> Q e -> one (f e x).
  Proof. intros F H. specialize (F e x H). unfold one. destruct (f e x) as [e' [y|]]; tauto. Qed.
  Lemma judge_one {X} (f f' : clos E X bool) (F : fine Q T f f') : forall l e, Q e ->
    let '(_, e', ok) := judge f l e in if ok then Q e' else T e'.
  Proof.
    induction l as [|x l IH]; intros e H; cbn [judge]; [exact H|]. pose proof (one_call f f' e x F H) as O.
    destruct (f e x) as [e1 [b|]]; cbn [one] in O; [|exact O]. specialize (IH e1 O). now destruct (judge f l e1) as [[k e2] ok].
  Qed.
  Lemma ref_fine {K V} (ne ne' : clos E (V * V) bool) (f f' : clos E (V * V) V) da db d :
    fine Q T ne ne' -> fine Q T f f' -> fine Q T (ref_clos (K := K) ne f da db d) (ref_clos ne' f' da db d).
  Proof.
    intros N F e arg H. unfold ref_clos. pose proof (F e (match arg with OJLeft _ v => (v, db) | OJRight _ w => (da, w) | OJBoth _ v w => (v, w) end) H) as F0.
    destruct (f e _) as [e1 [r|]]; [|exact F0]. destruct F0 as [F0 ->]. pose proof (N e1 (r, d) F0) as N0.
    destruct (ne e1 (r, d)) as [e2 [q|]]; [|exact N0]. destruct N0 as [N0 ->]. auto.
  Qed.
  Lemma arith_fine {V} (vc vc' : clos E V V) (op op' : clos E (V * V) V) : fine Q T vc vc' -> fine Q T op op' -> fine Q T (arith_clos vc op) (arith_clos vc' op').
  Proof.
    intros C O e [x y] H. unfold arith_clos. cbn [fst snd]. pose proof (C e x H) as C0. destruct (vc e x) as [e1 [x1|]]; [|exact C0]. destruct C0 as [C0 ->].
    pose proof (C e1 y C0) as C1. destruct (vc e1 y) as [e2 [y1|]]; [|exact C1]. destruct C1 as [C1 ->]. apply (O e2 (x1, y1) C1).
  Qed.
  Lemma max_fine {V} (gt gt' : clos E (V * V) bool) (vc vc' : clos E V V) : fine Q T gt gt' -> fine Q T vc vc' -> fine Q T (max_clos gt vc) (max_clos gt' vc').
  Proof.
    intros G C e p H. unfold max_clos. pose proof (G e p H) as G0. destruct (gt e p) as [e1 [q|]]; [|exact G0]. destruct G0 as [G0 ->]. apply (C e1 _ G0).
  Qed.
  Lemma min_fine {V} (gt gt' : clos E (V * V) bool) (vc vc' : clos E V V) : fine Q T gt gt' -> fine Q T vc vc' -> fine Q T (min_clos gt vc) (min_clos gt' vc').
  Proof.
    intros G C e p H. unfold min_clos. pose proof (G e p H) as G0. destruct (gt e p) as [e1 [q|]]; [|exact G0]. destruct G0 as [G0 ->]. apply (C e1 _ G0).
  Qed.
End Links.
Lemma ref_calm {E K V} (ne : clos E (V * V) bool) (f : clos E (V * V) V) da db d : calm ne -> calm f -> calm (ref_clos (K := K) ne f da db d).
Proof.
  intros N F e arg. unfold ref_clos. pose proof (F e (match arg with OJLeft _ v => (v, db) | OJRight _ w => (da, w) | OJBoth _ v w => (v, w) end)) as F0.
  destruct (f e _) as [e1 [r|]]; [|now destruct F0]. pose proof (N e1 (r, d)) as N0. destruct (ne e1 (r, d)) as [e2 [q|]]; [discriminate|now destruct N0].
Qed.
Lemma arith_calm {E V} (vc : clos E V V) (op : clos E (V * V) V) : calm vc -> calm op -> calm (arith_clos vc op).
Proof.
  intros C O e [x y]. unfold arith_clos. cbn [fst snd]. pose proof (C e x) as C0. destruct (vc e x) as [e1 [x1|]]; [|now destruct C0].
  pose proof (C e1 y) as C1. destruct (vc e1 y) as [e2 [y1|]]; [|now destruct C1]. apply O.
Qed.
Lemma max_calm {E V} (gt : clos E (V * V) bool) (vc : clos E V V) : calm gt -> calm vc -> calm (max_clos gt vc).
Proof. intros G C e p. unfold max_clos. pose proof (G e p) as G0. destruct (gt e p) as [e1 [q|]]; [apply C|now destruct G0]. Qed.
Lemma min_calm {E V} (gt : clos E (V * V) bool) (vc : clos E V V) : calm gt -> calm vc -> calm (min_clos gt vc).
Proof. intros G C e p. unfold min_clos. pose proof (G e p) as G0. destruct (gt e p) as [e1 [q|]]; [apply C|now destruct G0]. Qed.

Notation calm_cmp := (calmed (fun _ => Eq)).
Notation calm_clone := (calmed (fun v => v)).

(** ** C138 *)
Section Sets.
  Context {X E : Type} (log : E -> list bool) (cmp : clos E (X * X) comparison) (clone : clos E X X)
    (RC : records log cmp) (RL : records log clone) (strat : nat -> nat -> bool).
  Let FC e0 : fine (all_returned log e0) (last_panicked log e0) cmp (calm_cmp cmp).
  Proof. now apply records_fine. Qed.
  Let FL e0 : fine (all_returned log e0) (last_panicked log e0) clone (calm_clone clone).
  Proof. now apply records_fine. Qed.
  Let noc e' : threw (calm_cmp cmp) e' -> False.
  Proof. apply calm_threw, calmed_calm. Qed.
  Let nocc e' : threw (calm_cmp cmp) e' \/ threw (calm_clone clone) e' -> False.
  Proof. intros [H|H]; [now apply noc in H|]. revert H. apply calm_threw, calmed_calm. Qed.
  Lemma or_assign_ends a b e : ends log e (uset_or_assign cmp strat a b e).
  Proof using RC.
    destruct (C123_set_moving cmp strat a b e) as (K1 & _).
    destruct (C123_set_moving (calm_cmp cmp) strat a b e) as (_ & _ & _ & _ & G1 & _).
    destruct (t_set_ops strat _ _ cmp _ (FC e) _ _ (agree_ip (all_returned log e) (last_panicked log e)) (fun s => bd_tgt (ip_a s)) (ip_new a b) e (start log e)) as (R1 & _).
    exact (trd_ends _ _ _ _ R1 (blames_none _ _ noc G1) (merges_ends _ K1)).
  Qed.
  (** the operators on two borrowed sets, and those that assign *)
  Theorem C138_set_operators a b e :
    (ends log e (uset_union cmp clone strat a b e) /\ ends log e (uset_intersection cmp clone strat a b e) /\
     ends log e (uset_symmetric_difference cmp clone strat a b e) /\ ends log e (uset_difference cmp clone strat a b e)) /\
    (ends log e (uset_or_assign_ref cmp clone strat a b e) /\ ends log e (uset_and_assign_ref cmp clone strat a b e) /\
     ends log e (uset_xor_assign_ref cmp clone strat a b e) /\ ends log e (uset_sub_assign_ref cmp clone strat a b e)) /\
    (ends log e (uset_or_assign cmp strat a b e) /\ ends log e (uset_and_assign cmp strat a b e) /\
     ends log e (uset_xor_assign cmp strat a b e) /\ ends log e (uset_sub_assign cmp strat a b e)).
  Proof using RC RL.
    destruct (C123_set_building cmp clone strat a b e) as (M1 & M2 & M3 & M4).
    destruct (C123_set_assigning cmp clone strat a b e) as (N1 & N2 & N3 & N4).
    destruct (C123_set_moving cmp strat a b e) as (K1 & K2 & K3 & K4 & _).
    destruct (C123_set_panics (calm_cmp cmp) (calm_clone clone) strat a b e) as (B1 & B2 & B3 & B4 & D1 & D2 & D3 & D4).
    destruct (C123_set_moving (calm_cmp cmp) strat a b e) as (_ & _ & _ & _ & G1 & G2 & G3 & G4).
    destruct (t_set_ops strat _ _ cmp _ (FC e) _ _ (agree_vs _ _ clone _ (FL e)) vs_r (vs_new a b) e (start log e)) as (P1 & P2 & P3 & P4).
    destruct (t_set_ops strat _ _ cmp _ (FC e) _ _ (agree_ipr _ _ clone _ (FL e)) (fun s => bd_tgt (ipr_a s)) (ipr_new a b) e (start log e)) as (Q1 & Q2 & Q3 & Q4).
    destruct (t_set_ops strat _ _ cmp _ (FC e) _ _ (agree_ip (all_returned log e) (last_panicked log e)) (fun s => bd_tgt (ip_a s)) (ip_new a b) e (start log e)) as (R1 & R2 & R3 & R4).
    split; [|split]; repeat apply conj.
    - exact (trd_ends _ _ _ _ P1 (blames_none _ _ nocc B1) (merges_ends _ M1)).
    - exact (trd_ends _ _ _ _ P2 (blames_none _ _ nocc B2) (merges_ends _ M2)).
    - exact (trd_ends _ _ _ _ P3 (blames_none _ _ nocc B3) (merges_ends _ M3)).
    - exact (trd_ends _ _ _ _ P4 (blames_none _ _ nocc B4) (merges_ends _ M4)).
    - exact (trd_ends _ _ _ _ Q1 (blames_none _ _ nocc D1) (merges_ends _ N1)).
    - exact (trd_ends _ _ _ _ Q2 (blames_none _ _ noc D2) (merges_ends _ N2)).
    - exact (trd_ends _ _ _ _ Q3 (blames_none _ _ nocc D3) (merges_ends _ N3)).
    - exact (trd_ends _ _ _ _ Q4 (blames_none _ _ noc D4) (merges_ends _ N4)).
    - exact (trd_ends _ _ _ _ R1 (blames_none _ _ noc G1) (merges_ends _ K1)).
    - exact (trd_ends _ _ _ _ R2 (blames_none _ _ noc G2) (merges_ends _ K2)).
    - exact (trd_ends _ _ _ _ R3 (blames_none _ _ noc G3) (merges_ends _ K3)).
    - exact (trd_ends _ _ _ _ R4 (blames_none _ _ noc G4) (merges_ends _ K4)).
  Qed.
  (** the operators of TotalVecSet *)
  Theorem C138_total_set_operators (a b : tset X) e :
    (ends log e (utset_and cmp clone strat a b e) /\ ends log e (utset_or cmp clone strat a b e) /\
     ends log e (utset_xor cmp clone strat a b e) /\ ends log e (utset_sub cmp clone strat a b e) /\ ends log e (utset_not clone a e)) /\
    (ends log e (utset_and_assign cmp strat a b e) /\ ends log e (utset_or_assign cmp strat a b e) /\
     ends log e (utset_xor_assign cmp strat a b e) /\ ends log e (utset_sub_assign cmp strat a b e)).
  Proof using RC RL.
    destruct (C138_set_operators (ts_elements a) (ts_elements b) e) as ((M1 & M2 & M3 & M4) & _ & (K1 & K2 & K3 & K4)).
    destruct (C138_set_operators (ts_elements b) (ts_elements a) e) as ((M1' & M2' & M3' & M4') & _ & (K1' & K2' & K3' & K4')).
    unfold utset_and, utset_or, utset_xor, utset_sub, utset_and_assign, utset_or_assign, utset_xor_assign, utset_sub_assign.
    assert (N : ends log e (utset_not clone a e)).
    { unfold utset_not. pose proof (t_push_all _ _ clone _ (FL e) (ts_elements a) [] e (start log e)) as P.
      destruct (cpush_all clone (ts_elements a) [] e) as [[r e1] ok] eqn:C.
      destruct ok; cbn [trv ends] in *; [apply P|]. destruct P as [P|[P P1]]; [exact P|].
      exfalso. destruct (cpush_all (calm_clone clone) (ts_elements a) [] e) as [[r2 e2] ok2] eqn:C2. injection P1 as -> -> ->.
      apply cpush_threw in C2. revert C2. apply calm_threw, calmed_calm. }
    destruct (ts_negated a), (ts_negated b); repeat apply conj; try apply utag_ends; assumption.
  Qed.
End Sets.

Section Maps.
  Context {K E : Type} (log : E -> list bool) (cmp : clos E (K * K) comparison) (clone : clos E K K)
    (RC : records log cmp) (RL : records log clone) (strat : nat -> nat -> bool).
  Let FC e0 : fine (all_returned log e0) (last_panicked log e0) cmp (calm_cmp cmp).
  Proof. now apply records_fine. Qed.
  Let FL e0 : fine (all_returned log e0) (last_panicked log e0) clone (calm_clone clone).
  Proof. now apply records_fine. Qed.
  Let nog {A B} (f' : clos E A B) (C : calm f') e' : threw (calm_cmp cmp) e' \/ threw f' e' \/ threw (calm_clone clone) e' -> False.
  Proof. intros [H|[H|H]]; revert H; apply calm_threw; auto using @calmed_calm. Qed.
  Let nog' {A B} (f' : clos E A B) (C : calm f') e' : threw (calm_cmp cmp) e' \/ threw f' e' -> False.
  Proof. intros [H|H]; revert H; apply calm_threw; auto using @calmed_calm. Qed.
  Lemma outer_ends {V W R} (a : list (K * V)) (b : list (K * W)) e0 e (f f' : clos E (ojarg K V W) (option R)) :
    fine (all_returned log e0) (last_panicked log e0) f f' -> calm f' -> all_returned log e0 e -> ends log e0 (umap_outer_join cmp clone strat f a b e).
  Proof using RC RL.
    intros F C H. destruct (C123_map_joins (R := R) cmp clone strat a b e) as (M & _).
    destruct (C123_map_panics (R := R) (calm_cmp cmp) (calm_clone clone) strat a b e) as (B & _).
    exact (trd_ends _ _ _ _ (t_outer_join strat _ _ cmp _ (FC e0) clone _ (FL e0) a b e H f f' F) (blames_none _ _ (nog f' C) (B f')) (merges_ends _ (M f))).
  Qed.
  Lemma combine_ends {V} (a b : list (K * V)) e0 e (f f' : clos E (V * V) V) :
    fine (all_returned log e0) (last_panicked log e0) f f' -> calm f' -> all_returned log e0 e -> ends log e0 (umap_combine_with cmp strat f a b e).
  Proof using RC.
    intros F C H. destruct (C123_map_panics (V := V) (W := V) (R := V) (calm_cmp cmp) (fun e k => (e, Ret k)) strat a b e) as (_ & _ & _ & _ & _ & _ & _ & _ & B).
    exact (trd_ends _ _ _ _ (t_combine_with strat _ _ cmp _ (FC e0) f f' F a b e H) (blames_none _ _ (nog' f' C) (B f' b)) (merges_ends _ (C123_map_combine_with cmp strat f a b e))).
  Qed.
  (** the joins of two borrowed maps, the joins in place, combine_with *)
  Theorem C138_map_joins {V W R : Type} (a : list (K * V)) (b : list (K * W)) e :
    (forall f : clos E (ojarg K V W) (option R), records log f -> ends log e (umap_outer_join cmp clone strat f a b e)) /\
    (forall f : clos E (K * V * option W) (option R), records log f -> ends log e (umap_left_join cmp clone strat f a b e)) /\
    (forall f : clos E (K * option V * W) (option R), records log f -> ends log e (umap_right_join cmp clone strat f a b e)) /\
    (forall f : clos E (K * V * W) (option R), records log f -> ends log e (umap_inner_join cmp clone strat f a b e)) /\
    (forall f : clos E (ojarg K V W) (option V), records log f -> ends log e (umap_outer_join_with cmp clone strat f a b e)) /\
    (forall f : clos E (K * V * option W) (option V), records log f -> ends log e (umap_left_join_with cmp strat f a b e)) /\
    (forall f : clos E (K * option V * W) (option V), records log f -> ends log e (umap_right_join_with cmp clone strat f a b e)) /\
    (forall f : clos E (K * V * W) (option V), records log f -> ends log e (umap_inner_join_with cmp strat f a b e)) /\
    (forall (f : clos E (V * V) V) b, records log f -> ends log e (umap_combine_with cmp strat f a b e)).
  Proof using RC RL.
    destruct (C123_map_joins (R := R) cmp clone strat a b e) as (M1 & M2 & M3 & M4).
    destruct (C123_map_joins_with cmp clone strat a b e) as (M5 & M6 & M7 & M8).
    destruct (C123_map_panics (R := R) (calm_cmp cmp) (calm_clone clone) strat a b e) as (B1 & B2 & B3 & B4 & B5 & B6 & B7 & B8 & B9).
    assert (FF : forall A Y (d : A -> Y) (f : clos E A Y), records log f -> fine (all_returned log e) (last_panicked log e) f (calmed d f)).
    { intros. now apply records_fine. }
    assert (CF : forall A Y (d : A -> Y) (f : clos E A Y), calm (calmed d f)) by (intros; apply calmed_calm).
    pose proof (start log e) as H. pose proof (FC e) as FC0. pose proof (FL e) as FL0.
    repeat apply conj.
    - intros f R0. pose proof (FF _ _ (fun _ => None) f R0) as F. exact (trd_ends _ _ _ _ (t_outer_join strat _ _ cmp _ FC0 clone _ FL0 a b e H f _ F) (blames_none _ _ (nog _ (CF _ _ _ f)) (B1 _)) (merges_ends _ (M1 f))).
    - intros f R0. pose proof (FF _ _ (fun _ => None) f R0) as F. exact (trd_ends _ _ _ _ (t_left_join strat _ _ cmp _ FC0 clone _ FL0 a b e H f _ F) (blames_none _ _ (nog _ (CF _ _ _ f)) (B2 _)) (merges_ends _ (M2 f))).
    - intros f R0. pose proof (FF _ _ (fun _ => None) f R0) as F. exact (trd_ends _ _ _ _ (t_right_join strat _ _ cmp _ FC0 clone _ FL0 a b e H f _ F) (blames_none _ _ (nog _ (CF _ _ _ f)) (B3 _)) (merges_ends _ (M3 f))).
    - intros f R0. pose proof (FF _ _ (fun _ => None) f R0) as F. exact (trd_ends _ _ _ _ (t_inner_join strat _ _ cmp _ FC0 clone _ FL0 a b e H f _ F) (blames_none _ _ (nog _ (CF _ _ _ f)) (B4 _)) (merges_ends _ (M4 f))).
    - intros f R0. pose proof (FF _ _ (fun _ => None) f R0) as F. exact (trd_ends _ _ _ _ (t_outer_join_with strat _ _ cmp _ FC0 clone _ FL0 a b e H f _ F) (blames_none _ _ (nog _ (CF _ _ _ f)) (B5 _)) (merges_ends _ (M5 f))).
    - intros f R0. pose proof (FF _ _ (fun _ => None) f R0) as F. exact (trd_ends _ _ _ _ (t_left_join_with strat _ _ cmp _ FC0 clone _ FL0 a b e H f _ F) (blames_none _ _ (nog' _ (CF _ _ _ f)) (B6 _)) (merges_ends _ (M6 f))).
    - intros f R0. pose proof (FF _ _ (fun _ => None) f R0) as F. exact (trd_ends _ _ _ _ (t_right_join_with strat _ _ cmp _ FC0 clone _ FL0 a b e H f _ F) (blames_none _ _ (nog _ (CF _ _ _ f)) (B7 _)) (merges_ends _ (M7 f))).
    - intros f R0. pose proof (FF _ _ (fun _ => None) f R0) as F. exact (trd_ends _ _ _ _ (t_inner_join_with strat _ _ cmp _ FC0 clone _ FL0 a b e H f _ F) (blames_none _ _ (nog' _ (CF _ _ _ f)) (B8 _)) (merges_ends _ (M8 f))).
    - intros f b2 R0. pose proof (FF _ _ (fun p => fst p) f R0) as F.
      exact (trd_ends _ _ _ _ (t_combine_with strat _ _ cmp _ FC0 f _ F a b2 e H) (blames_none _ _ (nog' _ (CF _ _ _ f)) (B9 _ b2)) (merges_ends _ (C123_map_combine_with cmp strat f a b2 e))).
  Qed.

  (** TotalVecMap *)
  Section Total.
    Context {V : Type} (ne : clos E (V * V) bool) (RN : records log ne).
    Lemma combine_ref_ends (f f' : clos E (V * V) V) (a b : tmap K V) e : fine (all_returned log e) (last_panicked log e) f f' -> calm f' ->
      ends_b log e (utmap_combine_ref cmp clone strat ne f a b e).
    Proof using RC RL RN.
      intros F C. unfold utmap_combine_ref. pose proof (one_call _ _ f f' e (tm_default a, tm_default b) F (start log e)) as O.
      destruct (f e _) as [e1 [d|]]; cbn [one] in O; [|exact O].
      assert (G : ends log e (umap_outer_join cmp clone strat (ref_clos ne f (tm_default a) (tm_default b) d) (tm_map a) (tm_map b) e1)).
      { apply outer_ends with (f' := ref_clos (calmed (fun _ => false) ne) f' (tm_default a) (tm_default b) d); [|apply ref_calm; auto using @calmed_calm|exact O].
        apply ref_fine; [now apply records_fine|exact F]. }
      destruct (umap_outer_join _ _ _ _ _ _ e1) as [[r e2]|[r e2]|]; exact G.
    Qed.
    Theorem C138_total_map_operations (f op : clos E (V * V) V) (vclone : clos E V V) (gt : clos E (V * V) bool) (a b : tmap K V) e :
      records log f -> records log op -> records log vclone -> records log gt ->
      ends_b log e (utmap_combine_ref cmp clone strat ne f a b e) /\ ends_b log e (utmap_arith cmp clone strat ne vclone op a b e) /\
      ends_b log e (utmap_supremum cmp clone strat ne gt vclone a b e) /\ ends_b log e (utmap_infimum cmp clone strat ne gt vclone a b e) /\
      (forall m d, ends_b log e (utmap_new (K := K) ne m d e)).
    Proof using RC RL RN.
      intros Rf Ro Rv Rg. repeat apply conj.
      - apply combine_ref_ends with (f' := calmed fst f); [now apply records_fine|apply calmed_calm].
      - apply combine_ref_ends with (f' := arith_clos (calm_clone vclone) (calmed fst op)); [apply arith_fine; now apply records_fine|apply arith_calm; apply calmed_calm].
      - apply combine_ref_ends with (f' := max_clos (calmed (fun _ => false) gt) (calm_clone vclone)); [apply max_fine; now apply records_fine|apply max_calm; apply calmed_calm].
      - apply combine_ref_ends with (f' := min_clos (calmed (fun _ => false) gt) (calm_clone vclone)); [apply min_fine; now apply records_fine|apply min_calm; apply calmed_calm].
      - intros m d. unfold utmap_new, wmap_retain. pose proof (retain_loop_spec (fun e p => ne e (snd p, d)) m [] [] e) as H. cbn [app length Nat.add] in H.
        fold (wset_retain (fun e p => ne e (snd p, d)) m e) in H.
        pose proof (judge_one log e (fun e p => ne e (snd p, d)) (fun e p => calmed (fun _ => false) ne e (snd p, d))
          (fun e1 p => records_fine log e (fun _ => false) ne RN e1 (snd p, d)) m e (start log e)) as J.
        destruct (judge (fun e p => ne e (snd p, d)) m e) as [[acc e1] ok]. destruct H as (l' & H & _). rewrite H. destruct ok; exact J.
    Qed.
  End Total.
  Theorem C138_total_map_values {V W : Type} (ne : clos E (W * W) bool) (f : clos E V W) (m : tmap K V) e :
    records log ne -> records log f -> ends_b log e (Some (utmap_map_values clone ne f m e)).
  Proof using RL.
    intros RN Rf.
    assert (ON : forall e1 x, all_returned log e e1 -> one log e (ne e1 x)) by (intros e1 x H; eapply one_call; [apply (records_fine log e (fun _ => false)), RN|exact H]).
    assert (OF : forall e1 x, all_returned log e e1 -> one log e (f e1 x)).
    { intros e1 x (n & H). specialize (Rf e1 x). destruct (f e1 x) as [e2 [w|]]; cbn [one fst snd returned] in *.
      - exists (S n). now rewrite Rf, H, <- app_assoc, repeat_snoc.
      - exists n. now rewrite Rf, H, <- app_assoc. }
    assert (OL : forall e1 x, all_returned log e e1 -> one log e (clone e1 x)) by (intros e1 x H; eapply one_call; [apply FL|exact H]).
    assert (G : forall d l e1, all_returned log e e1 -> one log e (utmap_entries clone ne f d l e1)).
    { intros d. induction l as [|[k v] l IH]; intros e1 H1; cbn [utmap_entries]; [exact H1|].
      pose proof (OF e1 v H1) as F1. destruct (f e1 v) as [e2 [w|]]; cbn [one] in F1; [|exact F1].
      pose proof (ON e2 (w, d) F1) as N1. destruct (ne e2 (w, d)) as [e3 [[|]|]]; cbn [one] in N1; [|now apply IH|exact N1].
      pose proof (OL e3 k N1) as L1. destruct (clone e3 k) as [e4 [k'|]]; cbn [one] in L1; [|exact L1].
      pose proof (IH e4 L1) as I1. destruct (utmap_entries clone ne f d l e4) as [e5 [r|]]; exact I1. }
    unfold utmap_map_values. pose proof (OF e (tm_default m) (start log e)) as F1. destruct (f e (tm_default m)) as [e1 [d|]]; cbn [one] in F1; [|exact F1].
    pose proof (G d (tm_map m) e1 F1) as G1. destruct (utmap_entries clone ne f d (tm_map m) e1) as [e2 [r|]]; exact G1.
  Qed.
End Maps.
(** VecSet::retain, VecMap::retain *)
Theorem C138_retain {X K V E : Type} (log : E -> list bool) (e : E) :
  (forall (f : clos E X bool) (l : list X), records log f -> ends log e (wset_retain f l e)) /\
  (forall (f : clos E (K * V) bool) (m : list (K * V)), records log f -> ends log e (wmap_retain f m e)).
Proof.
  assert (G : forall X (f : clos E X bool) (l : list X), records log f -> ends log e (wset_retain f l e)).
  { intros Y f l R. pose proof (retain_loop_spec f l [] [] e) as H. cbn [app length Nat.add] in H. fold (wset_retain f l e) in H.
    pose proof (judge_one log e f _ (records_fine log e (fun _ => false) f R) l e (start log e)) as J.
    destruct (judge f l e) as [[acc e1] ok]. destruct H as (l' & H & _). rewrite H. destruct ok; exact J. }
  split; [apply G|]. intros f m. unfold wmap_retain. apply G.
Qed.

(** ** Witnesses *)
Definition counted_cmp : clos (nat * list bool) (nat * nat) comparison := recording (tired (fun p => Nat.compare (fst p) (snd p))).
Definition counted_clone : clos (nat * list bool) nat nat := recording (tired (fun v => v)).
Example counted_record : records snd counted_cmp /\ records snd counted_clone.
Proof. split; apply recording_records. Qed.
(** the clone of the third element panics / nothing does *)
Example union_ends :
  uset_union counted_cmp counted_clone (fun _ _ => true) [1; 3] [2; 3] (4, []) = Unwound ([1; 2], (0, repeat true 4 ++ [false])) /\
  uset_union counted_cmp counted_clone (fun _ _ => true) [1; 3] [2; 3] (9, []) = Done ([1; 2; 3], (3, repeat true 6)).
Proof. split; vm_compute; reflexivity. Qed.

Print Assumptions C138_set_operators.
Print Assumptions C138_total_set_operators.
Print Assumptions C138_map_joins.
Print Assumptions C138_total_map_operations.
Print Assumptions C138_total_map_values.
Print Assumptions C138_retain.

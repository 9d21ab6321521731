(** Properties C103, C104: what the operators on references clone, and what a panicking Clone leaves.
    Clone is user code: [clone e x] runs in a world [e], changes it, returns a value or panics. The
    specification (performing a list of jobs in order until one panics) is CloneSpec.v. *)
From Verif Require Import VecSetFacts VecMapFacts VecMapHist PropSet PropMap CloneModel CloneSpec CloneFacts.

(** ** C103: exactly the elements (keys) of the result that are not moved are cloned, in order *)
(** [r] is the result of the operator without effects (C01-C04, C28). On references every element of r
    is cloned, in order, each once, nothing else; with [self] by value only those elements of r that
    [self] does not have, so that &= and -= clone nothing. For every Clone: also one that panics. *)
Theorem C103_set_operators :
  forall (T E : Type) (cmp : T -> T -> comparison) (clone : clos E T T) (strat : nat -> nat -> bool)
    (a b : list T) (e : E),
    OrdLaws cmp -> sorted cmp a -> sorted cmp b ->
    let pure (plain : res (list T)) (withclone : done (list T * E)) :=
      exists r, plain = Ok r /\ withclone = finished (runj (put clone) (map (fun x => (false, x)) r) e) in
    let in_place (plain : done (list T)) (withclone : done (list T * E)) :=
      exists r, plain = Done r /\ withclone = finished (runj (put clone) (map (fun x => (has cmp a x, x)) r) e) in
    let nothing (plain : done (list T)) (withclone : done (list T * E)) :=
      exists r, plain = Done r /\ withclone = Done (r, e) in
    pure (vset_union cmp strat a b) (cset_union clone cmp strat a b e) /\
    pure (vset_intersection cmp strat a b) (cset_intersection clone cmp strat a b e) /\
    pure (vset_symmetric_difference cmp strat a b) (cset_symmetric_difference clone cmp strat a b e) /\
    pure (vset_difference cmp strat a b) (cset_difference clone cmp strat a b e) /\
    in_place (vset_bitor_assign_ref cmp strat a b) (cset_or_assign_ref clone cmp strat a b e) /\
    in_place (vset_bitxor_assign_ref cmp strat a b) (cset_xor_assign_ref clone cmp strat a b e) /\
    nothing (vset_bitand_assign_ref cmp strat a b) (cset_and_assign_ref clone cmp strat a b e) /\
    nothing (vset_sub_assign_ref cmp strat a b) (cset_sub_assign_ref clone cmp strat a b e).
Proof.
  intros T E cmp clone strat a b e L Sa Sb. cbn zeta.
  assert (P : forall ta tb tc, exists r,
    vs_merge strat (setop (cmp := cmp) ta tb tc (vs_msm CloneConverter CloneConverter)) a b = Ok r /\
    cvs_merge strat (setop (cmp := cmp) ta tb tc (cvs_msm clone)) a b e =
      finished (runj (put clone) (map (fun x => (false, x)) r) e)).
  { intros ta tb tc. exists (set_ref (cmp := cmp) ta tb tc a b).
    split; [now apply (vs_merge_set L)|now apply (cvs_merge_spec clone L)]. }
  assert (I : forall ta tb tc, exists r, r = set_ref (cmp := cmp) ta tb tc a b /\
    ipr_merge strat (setop (cmp := cmp) ta tb tc (ipr_msm CloneConverter)) a b = Done r /\
    cipr_merge strat (setop (cmp := cmp) ta tb tc (cipr_msm clone)) a b e =
      finished (runj (put clone) (map (fun x => (has cmp a x, x)) r) e)).
  { intros ta tb tc. exists (set_ref (cmp := cmp) ta tb tc a b). split; [reflexivity|].
    split; [|now apply (cipr_merge_spec clone L)]. apply (ipr_merge_set L); auto. intros _ y. reflexivity. }
  assert (N : forall ta tc, exists r,
    ipr_merge strat (setop (cmp := cmp) ta false tc (ipr_msm CloneConverter)) a b = Done r /\
    cipr_merge strat (setop (cmp := cmp) ta false tc (cipr_msm clone)) a b e = Done (r, e)).
  { intros ta tc. destruct (I ta false tc) as (r & Er & E1 & E2). exists r. split; [exact E1|]. rewrite E2.
    assert (M : map (fun x => (has cmp a x, x)) r = map (fun x => (true, x)) r).
    { apply map_ext_in. intros x Hx. f_equal. apply has_mem. rewrite Er in Hx. unfold set_ref in Hx.
      apply (tape_ref_In L) in Hx; [|now apply ksorted_id|now apply ksorted_id].
      destruct Hx as [(z & H1 & _ & H2)|[(z & H1 & H2 & H3)|(z & y & H1 & H2 & _ & H3)]].
      - unfold sel in H2. destruct ta; [|discriminate]. injection H2 as <-. exists z. split; [exact H1|apply (cmp_refl L)].
      - discriminate.
      - unfold sel in H3. destruct tc; [|discriminate]. injection H3 as <-. exists z. split; [exact H1|apply (cmp_refl L)]. }
    rewrite M, runj_moved. reflexivity. }
  assert (I' : forall ta tb tc, exists r,
    ipr_merge strat (setop (cmp := cmp) ta tb tc (ipr_msm CloneConverter)) a b = Done r /\
    cipr_merge strat (setop (cmp := cmp) ta tb tc (cipr_msm clone)) a b e =
      finished (runj (put clone) (map (fun x => (has cmp a x, x)) r) e)).
  { intros ta tb tc. destruct (I ta tb tc) as (r & _ & E1 & E2). eauto. }
  split; [exact (P true true true)|]. split; [exact (P false false true)|]. split; [exact (P true true false)|].
  split; [exact (P true false false)|]. split; [exact (I' true true true)|]. split; [exact (I' true true false)|].
  split; [exact (N false true)|exact (N true false)].
Qed.
Print Assumptions C103_set_operators.

(** the calls of a Clone that records them *)
Theorem C103_clone_calls :
  forall (T : Type) (cmp : T -> T -> comparison) (strat : nat -> nat -> bool) (a b log : list T),
    OrdLaws cmp -> sorted cmp a -> sorted cmp b ->
    let clone : clos (list T) T T := log_clos (fun x => x) in
    (exists r, vset_union cmp strat a b = Ok r /\ cset_union clone cmp strat a b log = Done (r, log ++ r)) /\
    (exists r, vset_intersection cmp strat a b = Ok r /\ cset_intersection clone cmp strat a b log = Done (r, log ++ r)) /\
    (exists r, vset_symmetric_difference cmp strat a b = Ok r /\
       cset_symmetric_difference clone cmp strat a b log = Done (r, log ++ r)) /\
    (exists r, vset_difference cmp strat a b = Ok r /\ cset_difference clone cmp strat a b log = Done (r, log ++ r)) /\
    (exists r, vset_bitor_assign_ref cmp strat a b = Done r /\
       cset_or_assign_ref clone cmp strat a b log = Done (r, log ++ filter (fun x => negb (has cmp a x)) r)) /\
    (exists r, vset_bitxor_assign_ref cmp strat a b = Done r /\
       cset_xor_assign_ref clone cmp strat a b log = Done (r, log ++ filter (fun x => negb (has cmp a x)) r)).
Proof.
  intros T cmp strat a b log L Sa Sb. cbn zeta.
  destruct (C103_set_operators T (list T) cmp (log_clos (fun x => x)) strat a b log L Sa Sb)
    as (P1 & P2 & P3 & P4 & I1 & I2 & _).
  assert (P : forall r l, finished (runj (put (log_clos (fun x : T => x))) (map (fun x => (false, x)) r) l) = Done (r, l ++ r)).
  { assert (Q : forall r l, runj (put (log_clos (fun x : T => x))) (map (fun x => (false, x)) r) l = (r, l ++ r, true)).
    { induction r as [|x r IH]; intros l; cbn [map runj]; [now rewrite app_nil_r|].
      unfold put at 1, log_clos at 1. cbn [fst snd]. rewrite IH, <- app_assoc. reflexivity. }
    intros r l. now rewrite Q. }
  assert (I : forall r l, finished (runj (put (log_clos (fun x : T => x))) (map (fun x => (has cmp a x, x)) r) l) =
    Done (r, l ++ filter (fun x => negb (has cmp a x)) r)).
  { assert (Q : forall r l, runj (put (log_clos (fun x : T => x))) (map (fun x => (has cmp a x, x)) r) l =
      (r, l ++ filter (fun x => negb (has cmp a x)) r, true)).
    { induction r as [|x r IH]; intros l; cbn [map runj filter]; [now rewrite app_nil_r|].
      unfold put at 1, log_clos at 1. cbn [fst snd]. destruct (has cmp a x); cbn [negb]; rewrite IH; [reflexivity|].
      now rewrite <- app_assoc. }
    intros r l. now rewrite Q. }
  split; [destruct P1 as (r & E1 & E2)|split; [destruct P2 as (r & E1 & E2)|split; [destruct P3 as (r & E1 & E2)|
    split; [destruct P4 as (r & E1 & E2)|split; [destruct I1 as (r & E1 & E2)|destruct I2 as (r & E1 & E2)]]]]];
    exists r; (split; [exact E1|]); rewrite E2; auto.
Qed.
Print Assumptions C103_clone_calls.

(** The joins of VecMap: [args] are the arguments of the calls of the closure (C24-C27). The pure joins
    clone the key of every entry they make, after the closure returned its value; outer_join_with and
    right_join_with clone only keys that self does not have; left_join_with and inner_join_with clone
    nothing (they are the functions of C25, C27, C28). *)
Definition from_self {K V W} (x : ojarg K V W) : bool := match x with OJRight _ _ => false | _ => true end.
Definition has_left {K V W} (x : K * option V * W) : bool := match snd (fst x) with Some _ => true | None => false end.
Theorem C103_map_joins :
  forall (K V W : Type) (kcmp : K -> K -> comparison) (strat : nat -> nat -> bool) (a : list (K * V)) (b : list (K * W)),
    OrdLaws kcmp -> keys_sorted kcmp a -> keys_sorted kcmp b ->
    let performed {X R E} (clone : clos E K K) (f : clos E X (option R)) (key : X -> K) (moved : X -> bool) (args : list X) (e : E) :=
      finished (runj (put_entry clone f key) (map (fun x => (moved x, x)) args) e) in
    (exists args : list (ojarg K V W),
      sorted kcmp (map okey args) /\
      (forall k, kfind kcmp okey k args =
         match entry kcmp k a, entry kcmp k b with
         | Some (k1, x), Some (_, y) => Some (OJBoth k1 x y)
         | Some (k1, x), None => Some (OJLeft k1 x)
         | None, Some (k2, y) => Some (OJRight k2 y)
         | None, None => None
         end) /\
      (forall E R (clone : clos E K K) (f : clos E (ojarg K V W) (option R)) (e : E),
        cmap_outer_join clone kcmp strat f a b e = performed clone f okey (fun _ => false) args e) /\
      (forall E (clone : clos E K K) (f : clos E (ojarg K V W) (option V)) (e : E),
        cmap_outer_join_with clone kcmp strat f a b e = performed clone f okey from_self args e)) /\
    (exists args : list (K * V * option W),
      sorted kcmp (map tkey args) /\
      (forall k, kfind kcmp tkey k args =
         match entry kcmp k a with
         | Some (k1, x) => Some (k1, x, option_map snd (entry kcmp k b))
         | None => None
         end) /\
      (forall E R (clone : clos E K K) (f : clos E (K * V * option W) (option R)) (e : E),
        cmap_left_join clone kcmp strat f a b e = performed clone f tkey (fun _ => false) args e)) /\
    (exists args : list (K * option V * W),
      sorted kcmp (map tkey args) /\
      (forall k, kfind kcmp tkey k args =
         match entry kcmp k b with
         | Some (k2, y) =>
             match entry kcmp k a with
             | Some (k1, x) => Some (k1, Some x, y)
             | None => Some (k2, None, y)
             end
         | None => None
         end) /\
      (forall E R (clone : clos E K K) (f : clos E (K * option V * W) (option R)) (e : E),
        cmap_right_join clone kcmp strat f a b e = performed clone f tkey (fun _ => false) args e) /\
      (forall E (clone : clos E K K) (f : clos E (K * option V * W) (option V)) (e : E),
        cmap_right_join_with clone kcmp strat f a b e = performed clone f tkey has_left args e)) /\
    (exists args : list (K * V * W),
      sorted kcmp (map tkey args) /\
      (forall k, kfind kcmp tkey k args =
         match entry kcmp k a, entry kcmp k b with
         | Some (k1, x), Some (_, y) => Some (k1, x, y)
         | _, _ => None
         end) /\
      (forall E R (clone : clos E K K) (f : clos E (K * V * W) (option R)) (e : E),
        cmap_inner_join clone kcmp strat f a b e = performed clone f tkey (fun _ => false) args e)).
Proof.
  intros K V W kcmp strat a b L Sa Sb. cbn zeta. split; [|split; [|split]].
  - exists (jlog (kcmp := kcmp) (Some OJLeft) (Some OJRight) OJBoth a b). split; [|split; [|split]].
    + apply (jlog_sorted L); auto; try (apply some_inj_key; reflexivity).
    + intros k. rewrite (jlog_kfind L) by (auto; try (apply some_inj_key; reflexivity)).
      destruct (entry kcmp k a) as [[? ?]|], (entry kcmp k b) as [[? ?]|]; reflexivity.
    + intros E R clone f e.
      refine (cvs_join_spec clone L okey f (Some OJLeft) (Some OJRight) OJBoth _ _ _ strat a b e Sa Sb);
        [apply some_inj_key; reflexivity|apply some_inj_key; reflexivity|reflexivity].
    + intros E clone f e.
      refine (cipr_join_spec clone L okey f _ (Some OJLeft) OJRight OJBoth _ _ _ strat from_self a b e _ _ _ Sa Sb);
        try reflexivity; [|now intros h k v [= <-]].
      intros s n H. apply for_n_does_a; [|exact H]. intros [m e0] [k v] t Q. cbn [mo_a fst] in Q. unfold oji_a, bd_pop_front.
      rewrite Q. exact (call_does_i clone okey f _ OJRight OJBoth (m, e0) (OJLeft k v)
        (MkIpr (MkB (bd_tgt (ipr_a m)) t (bd_drop (ipr_a m))) (ipr_b m)) t (ipr_b m) eq_refl eq_refl eq_refl).
  - exists (jlog (kcmp := kcmp) (Some (fun k v => (k, v, None))) None (fun k v w => (k, v, Some w)) a b). split; [|split].
    + apply (jlog_sorted L); auto; try (apply some_inj_key; reflexivity); apply none_key.
    + intros k. rewrite (jlog_kfind L) by (auto; try (apply some_inj_key; reflexivity); apply none_key).
      destruct (entry kcmp k a) as [[? ?]|], (entry kcmp k b) as [[? ?]|]; reflexivity.
    + intros E R clone f e.
      refine (cvs_join_spec clone L tkey f (Some (fun k v => (k, v, None))) None (fun k v w => (k, v, Some w)) _ _ _ strat a b e Sa Sb);
        [apply some_inj_key; reflexivity|apply none_key|reflexivity].
  - exists (jlog (kcmp := kcmp) None (Some (fun k w => (k, None, w))) (fun k v w => (k, Some v, w)) a b). split; [|split; [|split]].
    + apply (jlog_sorted L); auto; try (apply some_inj_key; reflexivity); apply none_key.
    + intros k. rewrite (jlog_kfind L) by (auto; try (apply some_inj_key; reflexivity); apply none_key).
      destruct (entry kcmp k a) as [[? ?]|], (entry kcmp k b) as [[? ?]|]; reflexivity.
    + intros E R clone f e.
      refine (cvs_join_spec clone L tkey f None (Some (fun k w => (k, None, w))) (fun k v w => (k, Some v, w)) _ _ _ strat a b e Sa Sb);
        [apply none_key|apply some_inj_key; reflexivity|reflexivity].
    + intros E clone f e.
      refine (cipr_join_spec clone L tkey f _ None (fun k w => (k, None, w)) (fun k v w => (k, Some v, w)) _ _ _ strat has_left a b e _ _ _ Sa Sb);
        try reflexivity; [|discriminate].
      intros s n H. unfold jA. cbn [option_map]. rewrite omap_none. unfold does. cbn [runj].
      eexists. split; [reflexivity|]. cbn. rewrite app_nil_r. auto.
  - exists (jlog (kcmp := kcmp) None None (fun k v w => (k, v, w)) a b). split; [|split].
    + apply (jlog_sorted L); auto; try (apply some_inj_key; reflexivity); apply none_key.
    + intros k. rewrite (jlog_kfind L) by (auto; try (apply some_inj_key; reflexivity); apply none_key).
      destruct (entry kcmp k a) as [[? ?]|], (entry kcmp k b) as [[? ?]|]; reflexivity.
    + intros E R clone f e.
      refine (cvs_join_spec clone L tkey f None None (fun k v w => (k, v, w)) _ _ _ strat a b e Sa Sb);
        [apply none_key|apply none_key|reflexivity].
Qed.
Print Assumptions C103_map_joins.
(** third clone panics; a clone that records its calls; keys cloned by outer_join and outer_join_with *)
Definition third_clone : clos nat nat nat := fun n x => (S n, if n =? 2 then Throw else Ret x).
Example C103_witness :
  cset_union (log_clos (fun x => x)) Nat.compare (fun _ _ => true) [1;3;5] [2;3;6] [] = Done ([1;2;3;5;6], [1;2;3;5;6]) /\
  cset_or_assign_ref (log_clos (fun x => x)) Nat.compare (fun _ _ => false) [1;3;5] [2;3;6] [] = Done ([1;2;3;5;6], [2;6]) /\
  cset_xor_assign_ref (log_clos (fun x => x)) Nat.compare (fun _ _ => true) [1;3;5] [2;3;6] [] = Done ([1;2;5;6], [2;6]) /\
  cset_sub_assign_ref (log_clos (fun x => x)) Nat.compare (fun _ _ => true) [1;3;5] [2;3;6] [] = Done ([1;5], []) /\
  cset_union third_clone Nat.compare (fun _ _ => true) [1;3;5] [2;3;6] 0 = Unwound ([1;2], 3) /\
  cset_or_assign_ref third_clone Nat.compare (fun _ _ => true) [1;3;5] [2;3;6;7] 0 = Unwound ([1;2;3;5;6], 3).
Proof. vm_compute. auto 10. Qed.
Example C103_map_witness :
  let f {R} (g : ojarg nat nat nat -> option R) : clos (list nat) (ojarg nat nat nat) (option R) := fun e x => (e, Ret (g x)) in
  let total x := match x with OJLeft k v => if k =? 1 then None else Some v | OJRight _ w => Some w | OJBoth _ v w => Some (v + w) end in
  cmap_outer_join (log_clos (fun x => x)) Nat.compare (fun _ _ => true) (f total) [(1,1);(3,3);(5,5)] [(2,2);(3,4)] [] =
    Done ([(2,2);(3,7);(5,5)], [2;3;5]) /\
  cmap_outer_join_with (log_clos (fun x => x)) Nat.compare (fun _ _ => true) (f total) [(1,1);(3,3);(5,5)] [(2,2);(3,4)] [] =
    Done ([(2,2);(3,7);(5,5)], [2]) /\
  cmap_right_join_with third_clone Nat.compare (fun _ _ => true) (fun e '(k, v, w) => (e, Ret (Some (k + w))))
    [(1,1);(3,3);(5,5)] [(2,2);(3,4);(4,4);(6,6)] 0 = Unwound ([(2,4);(3,7);(4,8)], 3).
Proof. vm_compute. auto. Qed.

(** ** C104: a panicking Clone leaves a valid collection *)
(** a Clone that may panic at any call and may have any effects, but whose clones equal their original *)
Definition faithful {T E} (cmp : T -> T -> comparison) (clone : clos E T T) : Prop :=
  forall e x e' y, clone e x = (e', Ret y) -> cmp x y = Eq.
(** p is the beginning of r, element by element equal *)
Definition begins {T} (cmp : T -> T -> comparison) (p r : list T) : Prop :=
  exists r1 r2, r = r1 ++ r2 /\ Forall2 (fun x y => cmp x y = Eq) r1 p.

Lemma put_begins {T E} (cmp : T -> T -> comparison) (clone : clos E T T) (L : OrdLaws cmp) (F : faithful cmp clone)
  (t : T -> bool) : forall r e p e' ok,
  runj (put clone) (map (fun x => (t x, x)) r) e = (p, e', ok) ->
  exists r1 r2, r = r1 ++ r2 /\ Forall2 (fun x y => cmp x y = Eq) r1 p /\
    (ok = true -> r2 = []) /\ (ok = false -> exists x e1, In x r /\ t x = false /\ clone e1 x = (e', Throw)).
Proof.
  induction r as [|x r IH]; intros e p e' ok; cbn [map runj].
  - intros [= <- <- <-]. exists [], []. repeat split; auto; discriminate.
  - unfold put at 1. cbn [fst snd]. destruct (t x) eqn:Q.
    + destruct (runj (put clone) _ e) as [[p1 e1] ok1] eqn:Q1. intros [= <- <- <-].
      destruct (IH _ _ _ _ Q1) as (r1 & r2 & -> & H1 & H2 & H3). exists (x :: r1), r2. split; [reflexivity|].
      split; [constructor; [apply (cmp_refl L)|exact H1]|]. split; [exact H2|]. intros H.
      destruct (H3 H) as (z & ez & G1 & G2). exists z, ez. split; [now right|exact G2].
    + destruct (clone e x) as [e1 [y|]] eqn:C.
      * destruct (runj (put clone) _ e1) as [[p1 e2] ok1] eqn:Q1. intros [= <- <- <-].
        destruct (IH _ _ _ _ Q1) as (r1 & r2 & -> & H1 & H2 & H3). exists (x :: r1), r2. split; [reflexivity|].
        split; [constructor; [exact (F _ _ _ _ C)|exact H1]|]. split; [exact H2|]. intros H.
        destruct (H3 H) as (z & ez & G1 & G2). exists z, ez. split; [now right|exact G2].
      * intros [= <- <- <-]. exists [], (x :: r). split; [reflexivity|]. split; [constructor|]. split; [discriminate|].
        intros _. exists x, e. split; [now left|]. auto.
Qed.

Lemma eq_sorted {T} (cmp : T -> T -> comparison) (L : OrdLaws cmp) r p :
  Forall2 (fun x y => cmp x y = Eq) r p -> sorted cmp r -> sorted cmp p.
Proof.
  induction 1 as [|x y r p E1 F IH]; intros S; [constructor|].
  apply sorted_cons_inv in S as [S H]. apply sorted_cons; [exact (IH S)|].
  intros z Hz. assert (exists w, In w r /\ cmp w z = Eq) as (w & Hw & Ew).
  { clear -F Hz. induction F as [|u v r p E F IH]; [destruct Hz|]. destruct Hz as [<-|Hz]; [exists u; split; [now left|auto]|].
    destruct (IH Hz) as (w & H1 & H2). exists w. split; [now right|exact H2]. }
  rewrite <- (cmp_eq_l L _ _ _ E1), <- (cmp_eq_r L _ _ _ Ew). now apply H.
Qed.

(** In place: self afterwards is sorted; if the call returned it is (element by element) the result, if it
    unwound then a clone of an element of rhs that self does not have panicked, and self holds the
    beginning of the result. On references: the result, or a panic of a clone. *)
Theorem C104_panicking_clone_leaves_valid_set :
  forall (T E : Type) (cmp : T -> T -> comparison) (clone : clos E T T) (strat : nat -> nat -> bool)
    (a b : list T) (e : E),
    OrdLaws cmp -> faithful cmp clone -> sorted cmp a -> sorted cmp b ->
    let in_place (plain : done (list T)) (withclone : done (list T * E)) :=
      exists r p e', plain = Done r /\ sorted cmp p /\
        ((withclone = Done (p, e') /\ Forall2 (fun x y => cmp x y = Eq) r p) \/
         (withclone = Unwound (p, e') /\ begins cmp p r /\
          exists x e1, In x r /\ ~ mem cmp x a /\ clone e1 x = (e', Throw))) in
    let pure (plain : res (list T)) (withclone : done (list T * E)) :=
      exists r p e', plain = Ok r /\ sorted cmp p /\
        ((withclone = Done (p, e') /\ Forall2 (fun x y => cmp x y = Eq) r p) \/
         (withclone = Unwound (p, e') /\ begins cmp p r /\ exists x e1, In x r /\ clone e1 x = (e', Throw))) in
    in_place (vset_bitor_assign_ref cmp strat a b) (cset_or_assign_ref clone cmp strat a b e) /\
    in_place (vset_bitxor_assign_ref cmp strat a b) (cset_xor_assign_ref clone cmp strat a b e) /\
    pure (vset_union cmp strat a b) (cset_union clone cmp strat a b e) /\
    pure (vset_intersection cmp strat a b) (cset_intersection clone cmp strat a b e) /\
    pure (vset_symmetric_difference cmp strat a b) (cset_symmetric_difference clone cmp strat a b e) /\
    pure (vset_difference cmp strat a b) (cset_difference clone cmp strat a b e).
Proof.
  intros T E cmp clone strat a b e L F Sa Sb. cbn zeta.
  destruct (C103_set_operators T E cmp clone strat a b e L Sa Sb) as (P1 & P2 & P3 & P4 & I1 & I2 & _).
  assert (SR : forall ta tb tc, sorted cmp (set_ref (cmp := cmp) ta tb tc a b)) by (intros; apply (set_ref_sorted L); auto).
  assert (I : forall r w, sorted cmp r -> w = finished (runj (put clone) (map (fun x => (has cmp a x, x)) r) e) ->
    exists p e', sorted cmp p /\
      ((w = Done (p, e') /\ Forall2 (fun x y => cmp x y = Eq) r p) \/
       (w = Unwound (p, e') /\ begins cmp p r /\ exists x e1, In x r /\ ~ mem cmp x a /\ clone e1 x = (e', Throw)))).
  { intros r w Sr ->. destruct (runj (put clone) _ e) as [[p e'] ok] eqn:Q.
    destruct (put_begins cmp clone L F _ _ _ _ _ _ Q) as (r1 & r2 & -> & H1 & H2 & H3).
    exists p, e'. split; [exact (eq_sorted cmp L r1 p H1 (proj1 (proj1 (sorted_app (cmp := cmp) r1 r2) Sr)))|].
    destruct ok; cbn [finished].
    - left. rewrite H2 by reflexivity. rewrite app_nil_r. auto.
    - right. split; [reflexivity|]. split; [exists r1, r2; auto|].
      destruct (H3 eq_refl) as (x & e1 & G1 & G2 & G3). exists x, e1. split; [exact G1|]. split; [|exact G3].
      intros M. apply has_mem in M. congruence. }
  assert (P : forall r w, sorted cmp r -> w = finished (runj (put clone) (map (fun x => (false, x)) r) e) ->
    exists p e', sorted cmp p /\
      ((w = Done (p, e') /\ Forall2 (fun x y => cmp x y = Eq) r p) \/
       (w = Unwound (p, e') /\ begins cmp p r /\ exists x e1, In x r /\ clone e1 x = (e', Throw)))).
  { intros r w Sr ->. destruct (runj (put clone) _ e) as [[p e'] ok] eqn:Q.
    destruct (put_begins cmp clone L F _ _ _ _ _ _ Q) as (r1 & r2 & -> & H1 & H2 & H3).
    exists p, e'. split; [exact (eq_sorted cmp L r1 p H1 (proj1 (proj1 (sorted_app (cmp := cmp) r1 r2) Sr)))|].
    destruct ok; cbn [finished].
    - left. rewrite H2 by reflexivity. rewrite app_nil_r. auto.
    - right. split; [reflexivity|]. split; [exists r1, r2; auto|].
      destruct (H3 eq_refl) as (x & e1 & G1 & G2 & G3). exists x, e1. auto. }
  assert (RI : forall ta tb tc r, ipr_merge strat (setop (cmp := cmp) ta tb tc (ipr_msm CloneConverter)) a b = Done r -> sorted cmp r).
  { intros ta tb tc r H. rewrite (ipr_merge_set L) in H by (auto; intros _ y; reflexivity). injection H as <-. apply SR. }
  assert (RP : forall ta tb tc r, vs_merge strat (setop (cmp := cmp) ta tb tc (vs_msm CloneConverter CloneConverter)) a b = Ok r -> sorted cmp r).
  { intros ta tb tc r H. rewrite (vs_merge_set L) in H by auto. injection H as <-. apply SR. }
  split; [|split; [|split; [|split; [|split]]]].
  - destruct I1 as (r & E1 & E2). destruct (I r _ (RI true true true r E1) E2) as (p & e' & H). exists r, p, e'. auto.
  - destruct I2 as (r & E1 & E2). destruct (I r _ (RI true true false r E1) E2) as (p & e' & H). exists r, p, e'. auto.
  - destruct P1 as (r & E1 & E2). destruct (P r _ (RP true true true r E1) E2) as (p & e' & H). exists r, p, e'. auto.
  - destruct P2 as (r & E1 & E2). destruct (P r _ (RP false false true r E1) E2) as (p & e' & H). exists r, p, e'. auto.
  - destruct P3 as (r & E1 & E2). destruct (P r _ (RP true true false r E1) E2) as (p & e' & H). exists r, p, e'. auto.
  - destruct P4 as (r & E1 & E2). destruct (P r _ (RP true false false r E1) E2) as (p & e' & H). exists r, p, e'. auto.
Qed.
Print Assumptions C104_panicking_clone_leaves_valid_set.

(** The joins: for every closure and every faithful Clone of the keys (both with effects and panics), the
    map left behind by outer_join_with or right_join_with, and the result of a pure join, is strictly
    ordered; every value in it was returned by the closure for its key; a call unwinds only because the
    closure or a clone panicked. *)
Definition valid_with_clone {K X R E} (kcmp : K -> K -> comparison) (key : X -> K) (clone : clos E K K)
  (f : clos E X (option R)) (args : list X) (d : done (list (K * R) * E)) : Prop :=
  exists r e',
    (d = Done (r, e') \/
     d = Unwound (r, e') /\
       ((exists x e1, In x args /\ f e1 x = (e', Throw)) \/ (exists x e1, In x args /\ clone e1 (key x) = (e', Throw)))) /\
    keys_sorted kcmp r /\
    forall p, In p r -> exists x e1 e2, In x args /\ kcmp (fst p) (key x) = Eq /\ f e1 x = (e2, Ret (Some (snd p))).

Lemma put_entry_subk {K X R E} (kcmp : K -> K -> comparison) (L : OrdLaws kcmp) (key : X -> K) (clone : clos E K K)
  (f : clos E X (option R)) (F : faithful kcmp clone) (t : X -> bool) : forall args e p e' ok,
  runj (put_entry clone f key) (map (fun x => (t x, x)) args) e = (p, e', ok) ->
  subk kcmp key fst p args /\
  (forall q, In q p -> exists x e1 e2, In x args /\ kcmp (fst q) (key x) = Eq /\ f e1 x = (e2, Ret (Some (snd q)))) /\
  (ok = false -> (exists x e1, In x args /\ f e1 x = (e', Throw)) \/
                 (exists x e1, In x args /\ clone e1 (key x) = (e', Throw))).
Proof.
  induction args as [|x args IH]; intros e p e' ok; cbn [map runj].
  - intros [= <- <- <-]. split; [constructor|]. split; [intros q []|discriminate].
  - assert (OUT : forall eA p1 e2 ok1, runj (put_entry clone f key) (map (fun x => (t x, x)) args) eA = (p1, e2, ok1) ->
      subk kcmp key fst p1 (x :: args) /\
      (forall q, In q p1 -> exists z e1 e2, In z (x :: args) /\ kcmp (fst q) (key z) = Eq /\ f e1 z = (e2, Ret (Some (snd q)))) /\
      (ok1 = false -> (exists z e1, In z (x :: args) /\ f e1 z = (e2, Throw)) \/
                      (exists z e1, In z (x :: args) /\ clone e1 (key z) = (e2, Throw)))).
    { intros eA p1 e2 ok1 Q. destruct (IH _ _ _ _ Q) as (H1 & H2 & H3). split; [now constructor|]. split.
      - intros q Hq. destruct (H2 q Hq) as (z & ea & eb & G1 & G2). exists z, ea, eb. split; [now right|exact G2].
      - intros Hok. destruct (H3 Hok) as [(z & ea & G1 & G2)|(z & ea & G1 & G2)]; [left|right]; exists z, ea; (split; [now right|exact G2]). }
    unfold put_entry at 1. cbn [fst snd]. destruct (f e x) as [e1 [[r|]|]] eqn:Qf.
    + assert (PUT : forall k' e2, kcmp (key x) k' = Eq -> forall p1 e3 ok1,
        runj (put_entry clone f key) (map (fun x => (t x, x)) args) e2 = (p1, e3, ok1) ->
        subk kcmp key fst ((k', r) :: p1) (x :: args) /\
        (forall q, In q ((k', r) :: p1) -> exists z e1 e2, In z (x :: args) /\ kcmp (fst q) (key z) = Eq /\ f e1 z = (e2, Ret (Some (snd q)))) /\
        (ok1 = false -> (exists z e1, In z (x :: args) /\ f e1 z = (e3, Throw)) \/
                        (exists z e1, In z (x :: args) /\ clone e1 (key z) = (e3, Throw)))).
      { intros k' e2 Ek p1 e3 ok1 Q. destruct (OUT _ _ _ _ Q) as (H1 & H2 & H3). destruct (IH _ _ _ _ Q) as (H1' & _).
        apply (cmp_sym L) in Ek. split; [now constructor|]. split; [|exact H3]. intros q [<-|Hq]; [|now apply H2].
        exists x, e, e1. split; [now left|]. cbn [fst snd]. auto. }
      destruct (t x).
      * destruct (runj _ _ e1) as [[p1 e3] ok1] eqn:Q. intros [= <- <- <-].
        exact (PUT (key x) e1 (cmp_refl L (key x)) p1 e3 ok1 Q).
      * destruct (clone e1 (key x)) as [e2 [k'|]] eqn:C.
        -- destruct (runj _ _ e2) as [[p1 e3] ok1] eqn:Q. intros [= <- <- <-].
           exact (PUT k' e2 (F _ _ _ _ C) p1 e3 ok1 Q).
        -- intros [= <- <- <-]. split; [apply subk_none|]. split; [intros q []|]. intros _. right. exists x, e1. split; [now left|exact C].
    + destruct (runj _ _ e1) as [[p1 e3] ok1] eqn:Q. intros [= <- <- <-]. exact (OUT _ _ _ _ Q).
    + intros [= <- <- <-]. split; [apply subk_none|]. split; [intros q []|]. intros _. left. exists x, e. split; [now left|exact Qf].
Qed.

Theorem C104_panicking_clone_leaves_valid_map :
  forall (K V W E : Type) (kcmp : K -> K -> comparison) (clone : clos E K K) (strat : nat -> nat -> bool)
    (a : list (K * V)) (b : list (K * W)) (e : E),
    OrdLaws kcmp -> faithful kcmp clone -> keys_sorted kcmp a -> keys_sorted kcmp b ->
    let from_both {X} (key : X -> K) (args : list X) :=
      forall x, In x args -> mem kcmp (key x) (map fst a) \/ mem kcmp (key x) (map fst b) in
    (forall f, exists args, from_both okey args /\
       valid_with_clone kcmp okey clone f args (cmap_outer_join_with clone kcmp strat f a b e)) /\
    (forall f, exists args, from_both tkey args /\
       valid_with_clone kcmp tkey clone f args (cmap_right_join_with clone kcmp strat f a b e)) /\
    (forall R (f : clos E (ojarg K V W) (option R)), exists args, from_both okey args /\
       valid_with_clone kcmp okey clone f args (cmap_outer_join clone kcmp strat f a b e)) /\
    (forall R (f : clos E (K * V * option W) (option R)), exists args, from_both tkey args /\
       valid_with_clone kcmp tkey clone f args (cmap_left_join clone kcmp strat f a b e)) /\
    (forall R (f : clos E (K * option V * W) (option R)), exists args, from_both tkey args /\
       valid_with_clone kcmp tkey clone f args (cmap_right_join clone kcmp strat f a b e)) /\
    (forall R (f : clos E (K * V * W) (option R)), exists args, from_both tkey args /\
       valid_with_clone kcmp tkey clone f args (cmap_inner_join clone kcmp strat f a b e)).
Proof.
  intros K V W E kcmp clone strat a b e L F Sa Sb. cbn zeta.
  assert (ME : forall X (m : list (K * X)) k p, entry kcmp k m = Some p -> mem kcmp k (map fst m)).
  { intros X m k p H. apply entry_Some_In in H as [H1 H2]. exists (fst p). split; [now apply in_map|assumption]. }
  assert (KF : forall X (key : X -> K) args x, sorted kcmp (map key args) -> In x args ->
    kfind kcmp key (key x) args = Some x).
  { intros X key args x S H. apply (kfind_iff L); auto. split; [assumption|apply (cmp_refl L)]. }
  assert (VA : forall X R (key : X -> K) (f : clos E X (option R)) t args, sorted kcmp (map key args) ->
    valid_with_clone kcmp key clone f args (finished (runj (put_entry clone f key) (map (fun x => (t x, x)) args) e))).
  { intros X R key f t args S. destruct (runj _ _ e) as [[p e'] ok] eqn:Q.
    destruct (put_entry_subk kcmp L key clone f F t args e p e' ok Q) as (H1 & H2 & H3).
    exists p, e'. split; [destruct ok; cbn [finished]; auto|]. split; [|exact H2].
    exact (subk_sorted L fst key p args H1 S). }
  destruct (C103_map_joins K V W kcmp strat a b L Sa Sb) as
    ((ao & So & Ko & Po & Io) & (al & Sl & Kl & Pl) & (ar & Sr & Kr & Pr & Ir) & (ai & Si & Ki & Pi)).
  assert (Fo : forall x, In x ao -> mem kcmp (okey x) (map fst a) \/ mem kcmp (okey x) (map fst b)).
  { intros x Hx. specialize (KF _ okey ao x So Hx). rewrite Ko in KF.
    destruct (entry kcmp (okey x) a) as [[? ?]|] eqn:Qa; [left; eauto|].
    destruct (entry kcmp (okey x) b) as [[? ?]|] eqn:Qb; [right; eauto|discriminate]. }
  assert (Fl : forall x, In x al -> mem kcmp (tkey x) (map fst a) \/ mem kcmp (tkey x) (map fst b)).
  { intros x Hx. specialize (KF _ tkey al x Sl Hx). rewrite Kl in KF.
    destruct (entry kcmp (tkey x) a) as [[? ?]|] eqn:Qa; [left; eauto|discriminate]. }
  assert (Fr : forall x, In x ar -> mem kcmp (tkey x) (map fst a) \/ mem kcmp (tkey x) (map fst b)).
  { intros x Hx. specialize (KF _ tkey ar x Sr Hx). rewrite Kr in KF.
    destruct (entry kcmp (tkey x) b) as [[? ?]|] eqn:Qa; [right; eauto|discriminate]. }
  assert (Fi : forall x, In x ai -> mem kcmp (tkey x) (map fst a) \/ mem kcmp (tkey x) (map fst b)).
  { intros x Hx. specialize (KF _ tkey ai x Si Hx). rewrite Ki in KF.
    destruct (entry kcmp (tkey x) a) as [[? ?]|] eqn:Qa; [left; eauto|discriminate]. }
  split; [|split; [|split; [|split; [|split]]]].
  - intros f. exists ao. split; [exact Fo|]. rewrite Io. now apply VA.
  - intros f. exists ar. split; [exact Fr|]. rewrite Ir. now apply VA.
  - intros R f. exists ao. split; [exact Fo|]. rewrite Po. now apply VA.
  - intros R f. exists al. split; [exact Fl|]. rewrite Pl. now apply VA.
  - intros R f. exists ar. split; [exact Fr|]. rewrite Pr. now apply VA.
  - intros R f. exists ai. split; [exact Fi|]. rewrite Pi. now apply VA.
Qed.
Print Assumptions C104_panicking_clone_leaves_valid_map.
(** the hypotheses: a lawful order and a faithful clone that panics at its third call *)
Example C104_witness :
  OrdLaws Nat.compare /\ faithful Nat.compare third_clone /\
  cset_or_assign_ref third_clone Nat.compare (fun _ _ => false) [4;9] [1;4;5;7;8] 0 = Unwound ([1;4;5], 3).
Proof.
  split; [exact nat_ord|]. split; [|reflexivity]. intros e x e' y. unfold third_clone.
  destruct (e =? 2); [discriminate|]. intros [= <- <-]. apply Nat.compare_refl.
Qed.

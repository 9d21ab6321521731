(** Property C143: the joins of the two map types agree. For the same entries and the same function
    (one that neither panics nor has effects), outer, left, right and inner join give the same entries
    on a BTreeMap (the traits of src/btree_map.rs) as on a VecMap, pure or in place. The BTreeMap's in-place right
    join is the exception: see C43. *)
From Verif Require Import VecMapHist PropSet PropMap BTreeModel PropBTree.

Section Facts.
  Context {K : Type} {kcmp : K -> K -> comparison} (L : OrdLaws kcmp) (E : OrdEq kcmp).
  Lemma entry_own {V} k (m : list (K * V)) k' v : entry kcmp k m = Some (k', v) -> k' = k.
  Proof using E. intros H. apply entry_Some_In in H as [_ H]. cbn [fst] in H. apply E in H. congruence. Qed.
  Lemma get_entry_is {V} (m : list (K * V)) k : keys_sorted kcmp m -> vmap_get kcmp m k = option_map snd (entry kcmp k m).
  Proof using L. intros S. now rewrite (get_spec L), lookup_entry. Qed.
End Facts.

(** outer_join and left_join: for every total order of the keys, even if it calls distinct keys equal *)
Theorem C143_outer_and_left_joins_agree :
  forall (K V W R E : Type) (kcmp : K -> K -> comparison) (strat : nat -> nat -> bool)
    (a : list (K * V)) (b : list (K * W)) (e : E),
    OrdLaws kcmp -> keys_sorted kcmp a -> keys_sorted kcmp b ->
    (forall f : ojarg K V W -> option R,
       vmap_outer_join kcmp strat (pure_clos f) a b e = Done (btm_outer_join kcmp a b f, e)) /\
    (forall f : K -> V -> option W -> option R,
       vmap_left_join kcmp strat (pure_clos (fun '(k, v, o) => f k v o)) a b e = Done (btm_left_join kcmp a b f, e)).
Proof.
  intros K V W R E kcmp strat a b e L Sa Sb. destruct (C41_joins_pointwise K V W R kcmp a b L Sa Sb) as (HO & HL & _).
  split; intros f.
  - destruct (HO f) as (S & H). destruct (C24_outer_join_pointwise K V W R E kcmp strat f a b e L Sa Sb) as (r & -> & Sr & Hr).
    do 2 f_equal. apply (entry_ext L); auto. intros k. now rewrite Hr, H.
  - destruct (HL f) as (S & H).
    destruct (C25_left_join_pointwise K V W R E kcmp strat (fun '(k, v, o) => f k v o) a b e L Sa Sb) as (r & -> & Sr & Hr).
    do 2 f_equal. apply (entry_ext L); auto. intros k. rewrite Hr, H. now rewrite (get_entry_is L) by exact Sb.
Qed.
Print Assumptions C143_outer_and_left_joins_agree.

(** right_join and inner_join: keys that compare equal are identical (otherwise the two may keep
    different ones of two equal keys) *)
Theorem C143_right_and_inner_joins_agree :
  forall (K V W R E : Type) (kcmp : K -> K -> comparison) (strat : nat -> nat -> bool)
    (a : list (K * V)) (b : list (K * W)) (e : E),
    OrdLaws kcmp -> OrdEq kcmp -> keys_sorted kcmp a -> keys_sorted kcmp b ->
    (forall f : K -> option V -> W -> option R,
       vmap_right_join kcmp strat (pure_clos (fun '(k, o, w) => f k o w)) a b e = Done (btm_right_join kcmp a b f, e)) /\
    (forall f : K -> V -> W -> option R,
       vmap_inner_join kcmp strat (pure_clos (fun '(k, v, w) => f k v w)) a b e = Done (btm_inner_join kcmp a b f, e)) /\
    (* whatever the size hints the BTreeMap join goes by *)
    (forall (f : K -> V -> W -> option R) (ha hb : nat),
       vmap_inner_join kcmp strat (pure_clos (fun '(k, v, w) => f k v w)) a b e =
       Done (btm_inner_join_hint kcmp ha hb a b f, e)).
Proof.
  intros K V W R E kcmp strat a b e L EQ Sa Sb. destruct (C41_joins_pointwise K V W R kcmp a b L Sa Sb) as (_ & _ & HR & HI & HH).
  split; [|split].
  - intros f. destruct (HR f) as (S & H).
    destruct (C26_right_join_pointwise K V W R E kcmp strat (fun '(k, o, w) => f k o w) a b e L Sa Sb) as (r & -> & Sr & Hr).
    do 2 f_equal. apply (entry_ext L); auto. intros k. rewrite Hr, H.
    destruct (entry kcmp k b) as [[k2 y]|] eqn:Qb; [|reflexivity]. apply (entry_own EQ) in Qb as ->.
    destruct (entry kcmp k a) as [[k1 x]|] eqn:Qa; [|reflexivity]. now apply (entry_own EQ) in Qa as ->.
  - intros f. destruct (HI f) as (S & H).
    destruct (C27_inner_join_pointwise K V W R E kcmp strat (fun '(k, v, w) => f k v w) a b e L Sa Sb) as (r & -> & Sr & Hr).
    do 2 f_equal. apply (entry_ext L); auto. intros k. rewrite Hr, H.
    destruct (entry kcmp k a) as [[k1 x]|] eqn:Qa; [|reflexivity]. destruct (entry kcmp k b) as [[k2 y]|] eqn:Qb; [|reflexivity].
    apply (entry_own EQ) in Qa as ->. now apply (entry_own EQ) in Qb as ->.
  - intros f ha hb. destruct (HH f ha hb) as (S & H).
    destruct (C27_inner_join_pointwise K V W R E kcmp strat (fun '(k, v, w) => f k v w) a b e L Sa Sb) as (r & -> & Sr & Hr).
    do 2 f_equal. apply (entry_ext L); auto. intros k. rewrite Hr, H.
    destruct (entry kcmp k a) as [[k1 x]|] eqn:Qa; [|reflexivity]. destruct (entry kcmp k b) as [[k2 y]|] eqn:Qb; [|reflexivity].
    apply (entry_own EQ) in Qa as ->. apply (entry_own EQ) in Qb as ->. now destruct (ha <? hb).
Qed.
Print Assumptions C143_right_and_inner_joins_agree.

(** In place: the BTreeMap closures change the value and say whether to keep it, the VecMap closures
    return the new value or none. *)
Definition keeping {V} (o : V * bool) : option V := if snd o then Some (fst o) else None.
Theorem C143_in_place_joins_agree :
  forall (K V W E : Type) (kcmp : K -> K -> comparison) (strat : nat -> nat -> bool)
    (a : list (K * V)) (b : list (K * W)) (e : E),
    OrdLaws kcmp -> OrdEq kcmp -> keys_sorted kcmp a -> keys_sorted kcmp b ->
    (forall (l : K -> V -> option W -> V * bool) (r : K -> W -> option V),
       vmap_outer_join_with kcmp strat (pure_clos (fun x => match x with
         | OJLeft k v => keeping (l k v None) | OJBoth k v w => keeping (l k v (Some w)) | OJRight k w => r k w end)) a b e =
       Done (btm_outer_join_with kcmp a b l r, e)) /\
    (forall f : K -> V -> option W -> V * bool,
       vmap_left_join_with kcmp strat (pure_clos (fun '(k, v, o) => keeping (f k v o))) a b e =
       Done (btm_left_join_with kcmp a b f, e)) /\
    (forall f : K -> V -> W -> V * bool,
       vmap_inner_join_with kcmp strat (pure_clos (fun '(k, v, w) => keeping (f k v w))) a b e =
       Done (btm_inner_join_with kcmp a b f, e)).
Proof.
  intros K V W E kcmp strat a b e L EQ Sa Sb. destruct (C42_in_place_joins K V W kcmp a b L Sa Sb) as (HI & HL & HO).
  destruct (C28_in_place_joins_equal_pure K V W E kcmp strat a b e L Sa Sb) as (PO & PL & _ & PI).
  split; [|split].
  - intros l r. rewrite PO. destruct (HO l r) as (S & H).
    match goal with |- vmap_outer_join _ _ (pure_clos ?g) _ _ _ = _ =>
      destruct (C24_outer_join_pointwise K V W V E kcmp strat g a b e L Sa Sb) as (x & -> & Sr & Hr) end.
    do 2 f_equal. apply (entry_ext L); auto. intros k. rewrite Hr, H. unfold keeping.
    destruct (entry kcmp k a) as [[k1 v]|] eqn:Qa, (entry kcmp k b) as [[k2 w]|] eqn:Qb; try reflexivity.
    + apply (entry_own EQ) in Qa as ->. apply (entry_own EQ) in Qb as ->. cbv zeta. now destruct (snd (l k v (Some w))).
    + cbv zeta. now destruct (snd (l k1 v None)).
  - intros f. rewrite PL. destruct (HL f) as (S & H).
    match goal with |- vmap_left_join _ _ (pure_clos ?g) _ _ _ = _ =>
      destruct (C25_left_join_pointwise K V W V E kcmp strat g a b e L Sa Sb) as (x & -> & Sr & Hr) end.
    do 2 f_equal. apply (entry_ext L); auto. intros k. rewrite Hr, H. unfold keeping.
    rewrite (get_entry_is L) by exact Sb. destruct (entry kcmp k a) as [[k1 v]|]; [|reflexivity].
    cbv zeta. now destruct (snd (f _ _ _)).
  - intros f. rewrite PI. destruct (HI f) as (S & H).
    match goal with |- vmap_inner_join _ _ (pure_clos ?g) _ _ _ = _ =>
      destruct (C27_inner_join_pointwise K V W V E kcmp strat g a b e L Sa Sb) as (x & -> & Sr & Hr) end.
    do 2 f_equal. apply (entry_ext L); auto. intros k. rewrite Hr, H. unfold keeping.
    destruct (entry kcmp k a) as [[k1 v]|], (entry kcmp k b) as [[k2 w]|]; try reflexivity. now destruct (snd (f _ _ _)).
Qed.
Print Assumptions C143_in_place_joins_agree.

(** The exception: the in-place right joins differ, on concrete maps, whatever the closures. *)
Theorem C143_in_place_right_joins_differ :
  exists a b : list (nat * nat), keys_sorted Nat.compare a /\ keys_sorted Nat.compare b /\
    forall (strat : nat -> nat -> bool) (f : nat * option nat * nat -> option nat) fs fn,
      exists r, vmap_right_join_with Nat.compare strat (pure_clos f) a b tt = Done (r, tt) /\
        r <> btm_right_join_with Nat.compare a b fs fn.
Proof.
  destruct C43_right_join_with_refuted as (a & b & k & v & Sa & Sb & Nb & H). exists a, b.
  split; [exact Sa|]. split; [exact Sb|]. intros strat f fs fn.
  rewrite (proj1 (proj2 (proj2 (C28_in_place_joins_equal_pure nat nat nat unit Nat.compare strat a b tt nat_ord Sa Sb)))).
  destruct (C26_right_join_pointwise nat nat nat nat unit Nat.compare strat f a b tt nat_ord Sa Sb) as (r & -> & Sr & Hr).
  exists r. split; [reflexivity|]. intros ->. specialize (Hr k). rewrite H, Nb in Hr. discriminate.
Qed.
Print Assumptions C143_in_place_right_joins_differ.

Example C143_witness :
  keys_sorted Nat.compare ma /\ keys_sorted Nat.compare mb /\
  btm_outer_join Nat.compare ma mb (fun x => match x with OJLeft _ v => Some v | OJRight _ w => Some w | OJBoth _ v w => Some (v + w) end) =
    [(0,5);(1,10);(3,36);(4,40);(7,78);(9,9)] /\
  vmap_outer_join Nat.compare alt (pure_clos (fun x => match x with OJLeft _ v => Some v | OJRight _ w => Some w | OJBoth _ v w => Some (v + w) end)) ma mb tt =
    Done ([(0,5);(1,10);(3,36);(4,40);(7,78);(9,9)], tt).
Proof.
  split; [apply sortedb_ok; reflexivity|]. split; [apply sortedb_ok; reflexivity|]. split; vm_compute; reflexivity.
Qed.

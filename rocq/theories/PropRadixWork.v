(** C114, C115: how much work combining two radix trees is. *)
From Verif Require Import RadixModel RadixSpec RadixFacts RadixCostModel OracleModel RadixWorkModel RadixWorkFacts RadixWorkComb CostFacts RadixEffSpec RadixEffFacts PropRadix PropRadixEff PropRadixCost.
From Coq Require Import Lia.

(** *** Specification *)
(** the keys of an iteration, each counted with its length and [c] on top *)
Definition key_sum {K V} (c : nat) (l : list (list K * V)) : nat := list_sum (map (fun kv => length (fst kv) + c) l).

Lemma key_sum_total {K V} c (l : list (list K * V)) : key_sum c l = total (fun kv => length (fst kv) + c) l.
Proof. reflexivity. Qed.
Lemma key_sum_le {K V} c d (l : list (list K * V)) : c <= d -> key_sum c l <= key_sum d l.
Proof. intros H. rewrite !key_sum_total. apply total_le. intros; lia. Qed.
Lemma iter_inj {K V} (t : rtree K V) l : rt_iter t = Ok l -> l = listing t.
Proof. rewrite iter_listing. now intros [= ->]. Qed.

(** *** C114 *)
(** counting changes nothing: no assumption at all *)
Theorem C114_counted_is_plain :
  forall (K V W : Type) (kcmp : K -> K -> comparison) (strat : nat -> nat -> bool)
         (fo : V -> V -> V * bool) (fi : V -> W -> V * bool) (fp : W -> bool)
         (po : V -> V -> option V) (pi : V -> W -> option V) (pl : V -> option W -> option V)
         (a b : rtree K V) (c : rtree K W) (key : list K) (v : V),
    fst (krt_outer_combine_with kcmp strat fo a b) = rt_outer_combine_with kcmp strat fo a b /\
    fst (krt_insert kcmp strat a key v) = rt_insert kcmp strat a key v /\
    fst (krt_inner_combine_with kcmp strat fi a c) = rt_inner_combine_with kcmp strat fi a c /\
    fst (krt_left_combine_with kcmp strat fi a c) = rt_left_combine_with kcmp strat fi a c /\
    fst (krt_remove_prefix_with kcmp strat fp a c) = rt_remove_prefix_with kcmp strat fp a c /\
    fst (krt_retain_prefix_with kcmp strat fp a c) = rt_retain_prefix_with kcmp strat fp a c /\
    fst (krt_outer_combine kcmp strat po a b) = rt_outer_combine kcmp strat po a b /\
    fst (krt_inner_combine kcmp strat pi a c) = rt_inner_combine kcmp strat pi a c /\
    fst (krt_left_combine kcmp strat pl a c) = rt_left_combine kcmp strat pl a c /\
    fst (krt_intersects kcmp strat a c) = rt_intersects kcmp strat a c /\
    fst (krt_is_subset kcmp strat a c) = rt_is_subset kcmp strat a c.
Proof.
  intros. split; [apply outer_with_er|]. split; [apply outer_with_er|]. split; [apply inner_with_er|].
  split; [apply left_with_er|]. split; [apply remove_with_er|]. split; [apply retain_with_er|].
  split; [apply outer_pure_er|]. split; [apply inner_pure_er|]. split; [apply left_pure_er|].
  split; [apply intersects_er|]. apply is_subset_er.
Qed.
Print Assumptions C114_counted_is_plain.

(** The component comparisons of every combination are at most the total length of all keys of both
    trees, plus 14 per key, plus 2: linear in the size of the two inputs, for every merge strategy and
    whatever the user's functions answer. For the combinations no law of the order is needed. *)
Theorem C114_linear :
  forall (K V W : Type) (kcmp : K -> K -> comparison) (strat : nat -> nat -> bool)
         (fo : V -> V -> V * bool) (fi : V -> W -> V * bool) (fp : W -> bool)
         (po : V -> V -> option V) (pi : V -> W -> option V) (pl : V -> option W -> option V)
         (a b : rtree K V) (c : rtree K W) la lb lc,
    Canon kcmp a -> Canon kcmp b -> Canon kcmp c -> rt_iter a = Ok la -> rt_iter b = Ok lb -> rt_iter c = Ok lc ->
    w_cmp (snd (krt_outer_combine_with kcmp strat fo a b)) <= key_sum 14 la + key_sum 14 lb + 2 /\
    w_cmp (snd (krt_inner_combine_with kcmp strat fi a c)) <= key_sum 14 la + key_sum 14 lc + 2 /\
    w_cmp (snd (krt_left_combine_with kcmp strat fi a c)) <= key_sum 14 la + key_sum 14 lc + 2 /\
    w_cmp (snd (krt_remove_prefix_with kcmp strat fp a c)) <= key_sum 14 la + key_sum 14 lc + 2 /\
    w_cmp (snd (krt_retain_prefix_with kcmp strat fp a c)) <= key_sum 14 la + key_sum 14 lc + 2 /\
    w_cmp (snd (krt_outer_combine kcmp strat po a b)) <= key_sum 14 la + key_sum 14 lb + 2 /\
    w_cmp (snd (krt_inner_combine kcmp strat pi a c)) <= key_sum 14 la + key_sum 14 lc + 2 /\
    w_cmp (snd (krt_left_combine kcmp strat pl a c)) <= key_sum 14 la + key_sum 14 lc + 2 /\
    (OrdLaws kcmp ->
     w_cmp (snd (krt_intersects kcmp strat a c)) <= key_sum 14 la + key_sum 14 lc + 2 /\
     w_cmp (snd (krt_is_subset kcmp strat a c)) <= key_sum 14 la + key_sum 14 lc + 2).
Proof.
  intros K V W kcmp strat fo fi fp po pi pl a b c la lb lc CA CB CC IA IB IC.
  apply iter_inj in IA as ->. apply iter_inj in IB as ->. apply iter_inj in IC as ->.
  pose proof (psi_canon kcmp a CA) as HA. pose proof (psi_canon kcmp b CB) as HB. pose proof (psi_canon kcmp c CC) as HC.
  rewrite <- !key_sum_total in *.
  assert (B : forall x y z, y <= key_sum 14 (listing b) + 1 -> z <= psi a + y -> x <= z -> x <= key_sum 14 (listing a) + key_sum 14 (listing b) + 2) by (intros; lia).
  assert (C : forall x z, x <= psi a + psi c -> z = key_sum 14 (listing a) + key_sum 14 (listing c) + 2 -> x <= z) by (intros; lia).
  split; [apply (B _ (psi b) (psi a + psi b)); [exact HB|lia|apply outer_with_cost]|].
  split; [eapply C; [apply inner_with_cost|reflexivity]|].
  split; [eapply C; [apply left_with_cost|reflexivity]|].
  split; [eapply C; [apply remove_with_cost|reflexivity]|].
  split; [eapply C; [apply retain_with_cost|reflexivity]|].
  split; [apply (B _ (psi b) (psi a + psi b)); [exact HB|lia|apply outer_pure_cost]|].
  split; [eapply C; [apply inner_pure_cost|reflexivity]|].
  split; [eapply C; [apply left_pure_cost|reflexivity]|].
  intros L. split; (eapply C; [|reflexivity]); rewrite <- (psip_prefix a), <- (psip_prefix c).
  - apply intersects_cost; [exact L|now apply canon_WO..].
  - apply is_subset_cost; [exact L|now apply canon_WO..].
Qed.
Print Assumptions C114_linear.

(** *** insert *)
Section Insert.
  Context {K V : Type} (kcmp : K -> K -> comparison) (strat : nat -> nat -> bool) (f : V -> V -> V * bool).
  Notation cost x := (w_cmp (snd x)).
  Context (F M : nat).
  (** [M] comparisons are enough to find the place of one node among at most [F] *)
  Context (HM : forall k n, k <= F -> n <= mcmp k 1 -> (strat k 1 = false -> n <= digits k * 1) -> n <= M).
  Lemma insert_cost_kid fuel : forall a b : rtree K V, WO kcmp a -> fanout a <= F -> t_children b = [] ->
    cost (kouter_with kcmp strat f fuel a b) <= (M + 2) * length (t_prefix b) + (if length (t_prefix a) =? 0 then M else 0).
  Proof using HM.
    induction fuel as [|fuel IH]; intros a b WA FA CB; cbn [kouter_with]; [cbn; lia|].
    assert (KIDS : forall la lb, length la <= F -> Forall (fun c => (t_prefix c <> [] /\ WO kcmp c) /\ fanout c <= F) la ->
              Forall (fun y => t_children y = []) lb -> length lb <= 1 ->
              cost (kchildren_with kcmp strat (kouter_with kcmp strat f fuel) true true true mat_conv la lb) <= length lb * M + total (fun y => (M + 2) * length (t_prefix y)) lb).
    { intros la lb HL FL FB H1.
      destruct (kchildren_with_gg kcmp strat g_cmp (kouter_with kcmp strat f fuel) mat_conv true true true
        (fun c => (t_prefix c <> [] /\ WO kcmp c) /\ fanout c <= F) (fun y => t_children y = []) (fun _ => 0) (fun y => (M + 2) * length (t_prefix y)) la lb) as (n & N1 & N2 & N3).
      - intros x y [[NE WX] FX] HY. cbn [g_cmp gg]. pose proof (IH x y WX FX HY) as Q.
        destruct (t_prefix x); [easy|]. cbn [length Nat.eqb] in Q. lia.
      - intros _ y _. cbn. lia.
      - assumption.
      - assumption.
      - cbn [g_cmp gg w_cmp] in N3. rewrite total_scale in N3.
        assert (n <= length lb * M); [|lia].
        destruct lb as [|y [|z lb]]; [|apply HM in N1; [cbn [length]; lia|assumption|exact N2]|cbn in H1; lia].
        unfold mcmp in N1. rewrite Bool.orb_true_r in N1. cbn [length]. lia. }
    assert (KA : Forall (fun c => (t_prefix c <> [] /\ WO kcmp c) /\ fanout c <= F) (t_children a)).
    { apply Forall_forall. intros c I. destruct (wf_kids kcmp a WA) as [Q _]. rewrite Forall_forall in Q. split; [now apply Q|].
      pose proof (fanout_child a c I). lia. }
    pose proof (fanout_here a) as FH.
    destruct (common_prefix_count kcmp (t_prefix a) (t_prefix b)) as [n c] eqn:E. apply cpc_bounds in E as (L1 & L2 & L3 & L4).
    cbv zeta. apply un_cost. cbn [w_cmp].
    destruct (Nat.eqb_spec n (length (t_prefix a))) as [E1|N1]; destruct (Nat.eqb_spec n (length (t_prefix b))) as [E2|N2]; cbn [andb].
    - rewrite (L4 (or_introl E1)). rewrite (gg_spend g_cmp). cbn [g_cmp gg w_cmp]. rewrite CB.
      pose proof (bind_cost (kchildren_with kcmp strat (kouter_with kcmp strat f fuel) true true true mat_conv (t_children a) [])
         (fun c => tret (Node (t_prefix a) (upd_outer f (t_value a) (t_value b)) c)) _ 0 (KIDS (t_children a) [] ltac:(lia) KA (Forall_nil _) ltac:(cbn; lia)) (fun _ _ => le_n 0)) as Q.
      cbn [length Nat.mul total map list_sum fold_right Nat.add] in Q. set (A := if _ =? _ then M else 0). rewrite E2. nia.
    - rewrite (L4 (or_introl E1)). unfold tbind at 1. unfold kmat_short at 1. cbn [fst].
      destruct (mat_short b n) as [r| |] eqn:MS; cbn [snd kmat_short w_cmp wadd]; [|set (A := if _ =? _ then M else 0); nia..].
      apply mat_short_inv in MS as [LM ->].
      pose proof (bind_cost (kchildren_with kcmp strat (kouter_with kcmp strat f fuel) true true true mat_conv (t_children a) [Node (skipn n (t_prefix b)) (t_value b) (t_children b)])
         (fun c => tret (Node (t_prefix a) (t_value a) c)) _ 0 (KIDS (t_children a) [Node (skipn n (t_prefix b)) (t_value b) (t_children b)] ltac:(lia) KA (Forall_cons (P := fun y : rtree K V => t_children y = []) (Node _ _ _) CB (Forall_nil _)) ltac:(cbn; lia)) (fun _ _ => le_n 0)) as Q.
      rewrite (total_cons (fun y : rtree K V => (M + 2) * length (t_prefix y))) in Q. change (total (fun y : rtree K V => (M + 2) * length (t_prefix y)) []) with 0 in Q.
      cbn [length Nat.mul t_prefix] in Q. rewrite skipn_length in Q. rewrite <- E1. destruct (Nat.eqb_spec n 0) as [->|NZ]; nia.
    - rewrite (L4 (or_intror E2)). unfold tbind at 1. cbn [fst].
      destruct (t_split a n) as [r| |] eqn:SP; cbn [snd w_cmp wadd wk0]; [|set (A := if _ =? _ then M else 0); nia..].
      apply split_inv in SP as [LS ->]. rewrite (gg_spend g_cmp). cbn [g_cmp gg w_cmp t_children t_value t_prefix]. rewrite CB.
      match goal with |- context [tbind (kchildren_with _ _ _ _ _ _ _ ?la []) ?g] =>
        pose proof (bind_cost (kchildren_with kcmp strat (kouter_with kcmp strat f fuel) true true true mat_conv la []) g 0 0) as Q end.
      cbv beta in Q. set (A := if _ =? _ then M else 0).
      assert (Z : cost (kchildren_with kcmp strat (kouter_with kcmp strat f fuel) true true true mat_conv [Node (skipn n (t_prefix a)) (t_value a) (t_children a)] []) <= 0).
      { destruct (kchildren_with_gg kcmp strat g_cmp (kouter_with kcmp strat f fuel) mat_conv true true true
          (fun _ => True) (fun _ => False) (fun _ => 0) (fun _ => 0) [Node (skipn n (t_prefix a)) (t_value a) (t_children a)] []) as (m & M1 & _ & M3);
          [intros ? ? _ []|intros _ ? []|now apply Forall_forall|constructor|].
        unfold mcmp in M1. cbn [length Nat.eqb orb] in M1. cbn [g_cmp gg w_cmp] in M3. rewrite !total_scale in M3. lia. }
      specialize (Q Z (fun _ _ => le_n 0)). nia.
    - unfold tbind, kmat_short, ksort_heads. cbn [fst snd]. set (A := if _ =? _ then M else 0).
      destruct (t_split a n); cbn [fst snd]; [|cbn; nia..]. destruct (mat_short b n); cbn [fst snd]; [|cbn; nia..].
      destruct (sort_heads _ _); cbn [fst snd tret w_cmp wadd wk0]; nia.
  Qed.
End Insert.

(** insert compares a bounded number of times per component of the key, however many keys the tree
    holds: at most a multiple of the largest number of children of a node (by which the number of
    different components is meant: [C114_insert_finite]), or of its logarithm if the merge searches. *)
Theorem C114_insert :
  forall (K V : Type) (kcmp : K -> K -> comparison) (strat : nat -> nat -> bool) (t : rtree K V) (key : list K) (v : V),
    WO kcmp t ->
    w_cmp (snd (krt_insert kcmp strat t key v)) <= (6 * fanout t + 1) * (length key + 1) + 2 * length key /\
    ((forall n, strat n 1 = false) ->
     w_cmp (snd (krt_insert kcmp strat t key v)) <= (Nat.log2 (fanout t) + 1) * (length key + 1) + 2 * length key).
Proof.
  intros K V kcmp strat t key v W.
  assert (G : forall M, (forall k n, k <= fanout t -> n <= mcmp k 1 -> (strat k 1 = false -> n <= digits k * 1) -> n <= M) ->
    w_cmp (snd (krt_insert kcmp strat t key v)) <= M * (length key + 1) + 2 * length key).
  { intros M HM. unfold krt_insert, krt_outer_combine_with.
    etransitivity; [apply (insert_cost_kid kcmp strat _ (fanout t) M HM); [exact W|lia|reflexivity]|].
    cbn [rt_single t_prefix]. destruct (_ =? _); nia. }
  split.
  - apply G. intros k n H1 H2 _. pose proof (mcmp_le k 1). lia.
  - intros HS. apply G. intros k n H1 _ H3. specialize (H3 (HS k)).
    pose proof (digits_mono _ _ H1). assert (digits (fanout t) <= Nat.log2 (fanout t) + 1) by (unfold digits; destruct (fanout t); lia). lia.
Qed.
Print Assumptions C114_insert.
Theorem C114_insert_finite :
  forall (K V : Type) (kcmp : K -> K -> comparison) (strat : nat -> nat -> bool) (all : list K) (t : rtree K V) (key : list K) (v : V),
    OrdLaws kcmp -> (forall x, In x all) -> WO kcmp t ->
    w_cmp (snd (krt_insert kcmp strat t key v)) <= (6 * length all + 1) * (length key + 1) + 2 * length key /\
    ((forall n, strat n 1 = false) ->
     w_cmp (snd (krt_insert kcmp strat t key v)) <= (Nat.log2 (length all) + 1) * (length key + 1) + 2 * length key).
Proof.
  intros K V kcmp strat all t key v L HA W. pose proof (fanout_finite kcmp all t L HA W) as F.
  destruct (C114_insert K V kcmp strat t key v W) as [H1 H2]. pose proof (Nat.log2_le_mono _ _ F). split; [|intros HS; specialize (H2 HS)]; nia.
Qed.
Print Assumptions C114_insert_finite.

(** *** C115 *)
(** The in-place combinations clone nothing of the tree they change, and a value of the other tree at
    most once per component of its key, and twice more. The combinations that build a new tree clone
    each value of either tree at most so often. The predicates clone nothing. *)
Theorem C115_clones :
  forall (K V W : Type) (kcmp : K -> K -> comparison) (strat : nat -> nat -> bool)
         (fo : V -> V -> V * bool) (fi : V -> W -> V * bool) (fp : W -> bool)
         (po : V -> V -> option V) (pi : V -> W -> option V) (pl : V -> option W -> option V)
         (a b : rtree K V) (c : rtree K W) la lb lc,
    WO kcmp a -> WO kcmp b -> WO kcmp c -> rt_iter a = Ok la -> rt_iter b = Ok lb -> rt_iter c = Ok lc ->
    w_copy (snd (krt_outer_combine_with kcmp strat fo a b)) <= key_sum 2 lb /\
    w_copy (snd (krt_inner_combine_with kcmp strat fi a c)) <= key_sum 2 lc /\
    w_copy (snd (krt_left_combine_with kcmp strat fi a c)) <= key_sum 2 lc /\
    w_copy (snd (krt_remove_prefix_with kcmp strat fp a c)) <= key_sum 2 lc /\
    w_copy (snd (krt_retain_prefix_with kcmp strat fp a c)) <= key_sum 2 lc /\
    w_copy (snd (krt_outer_combine kcmp strat po a b)) <= key_sum 2 la + key_sum 2 lb /\
    w_copy (snd (krt_inner_combine kcmp strat pi a c)) <= key_sum 2 la + key_sum 2 lc /\
    w_copy (snd (krt_left_combine kcmp strat pl a c)) <= key_sum 2 la + key_sum 2 lc /\
    w_copy (snd (krt_intersects kcmp strat a c)) = 0 /\
    w_copy (snd (krt_is_subset kcmp strat a c)) = 0.
Proof.
  intros K V W kcmp strat fo fi fp po pi pl a b c la lb lc WA WB WC IA IB IC.
  apply iter_inj in IA as ->. apply iter_inj in IB as ->. apply iter_inj in IC as ->.
  assert (SL : forall {A B} (x : rtree K A) (y : rtree K B), lam (slack y) x <= key_sum 2 (listing x)).
  { intros A B x y. etransitivity; [apply (lam_mono _ 2); unfold slack; destruct (t_prefix y); lia|].
    rewrite lam_listing, key_sum_total. apply total_le. intros; lia. }
  split; [etransitivity; [now apply outer_with_copy|apply SL]|].
  split; [etransitivity; [now apply inner_with_copy|apply SL]|].
  split; [etransitivity; [now apply left_with_copy|apply SL]|].
  split; [etransitivity; [now apply remove_with_copy|apply SL]|].
  split; [etransitivity; [now apply retain_with_copy|apply SL]|].
  split; [etransitivity; [now apply outer_pure_copy|apply Nat.add_le_mono; apply SL]|].
  split; [etransitivity; [now apply inner_pure_copy|apply Nat.add_le_mono; apply SL]|].
  split; [etransitivity; [now apply left_pure_copy|apply Nat.add_le_mono; apply SL]|].
  split; [apply intersects_copy|apply is_subset_copy].
Qed.
Print Assumptions C115_clones.

(** One clone per value is not enough: no multiple of the number of entries bounds the clones, not
    even of an intersection, which keeps nothing of the second tree. *)
(** [m] keys that agree in the first [n] components *)
Definition broom (n m : nat) : rtree nat nat := Node (repeat 0 n) None (map (fun i => Node [i] (Some i) []) (seq 0 m)).
Lemma sum_ones (f : nat -> nat) m : (forall i, f i = 1) -> forall k, list_sum (map f (seq k m)) = m.
Proof. intros H. induction m as [|m IH]; intros k; [reflexivity|]. cbn [seq map]. specialize (IH (S k)). unfold list_sum in *. cbn [fold_right]. rewrite H, IH. lia. Qed.
Lemma broom_vals n m : t_vals (broom n m) = m.
Proof. unfold broom. cbn [t_vals cloned Nat.add]. rewrite map_map. now apply sum_ones. Qed.
Lemma broom_entries n m : entries (broom n m) = m.
Proof. unfold broom. cbn [entries Nat.add]. rewrite map_map. now apply sum_ones. Qed.
Lemma broom_canon n m : 2 <= m -> Canon Nat.compare (broom n m).
Proof.
  intros H. unfold broom, Canon. cbn [wf]. split; [|split; [|split]].
  - apply Forall_forall. intros c I. apply in_map_iff in I as (i & <- & _). discriminate.
  - generalize 0. induction m as [|m IH]; intros k; [constructor|]. cbn [seq map]. 
    assert (A : forall j l, StronglySorted (head_lt Nat.compare) (map (fun i => Node [i] (Some i) []) (seq j l))).
    { intros j l. revert j. induction l as [|l IHl]; intros j; [constructor|]. cbn [seq map]. constructor; [apply IHl|].
      apply Forall_forall. intros c I. apply in_map_iff in I as (i & <- & I2). apply in_seq in I2. cbn. apply Nat.compare_lt_iff. lia. }
    apply (A k (S m)).
  - intros _. rewrite map_length, seq_length. split; [|split].
    + intros _ Z. destruct m; [lia|discriminate].
    + intros _. lia.
    + apply Forall_forall. intros c I. apply in_map_iff in I as (i & <- & _). reflexivity.
  - generalize 0. induction m as [|m IH]; intros k; [exact I|].
    assert (A : forall j l, fold_right (fun c P => wf Nat.compare true c /\ P) True (map (fun i => Node [i] (Some i) []) (seq j l))).
    { intros j l. revert j. induction l as [|l IHl]; intros j; [exact I|]. cbn [seq map fold_right]. split; [|apply IHl].
      cbn. repeat split; try constructor; intros; discriminate. }
    apply (A k (S m)).
Qed.

(** the run ends, and clones at least [n] values *)
Definition clones_from {X} (n : nat) (r : tally X) : Prop := fst r <> OutOfFuel /\ n <= w_copy (snd r).
(** a merge of one node with one node of the same first component calls the collision handler *)
Lemma one_with {V W} strat rec ta tb cb (conv : rtree nat W -> option (rtree nat V)) n p q v w c d :
  clones_from n (rec (Node (0 :: p) v c) (Node (0 :: q) w d)) ->
  clones_from n (kchildren_with Nat.compare strat rec ta tb cb conv [Node (0 :: p) v c] [Node (0 :: q) w d]).
Proof.
  unfold clones_from, kchildren_with, wmerge, kop_with. cbn. intros [H1 H2].
  destruct (rec _ _) as [[r| |] u] eqn:E; [|destruct (strat 1 1); cbn; rewrite ?E; cbn; (split; [discriminate|exact H2])|now elim H1].
  destruct (strat 1 1); cbn; rewrite ?E; cbn; [|split; [discriminate|exact H2]].
  unfold bd_consume. destruct (negb _); cbn; (split; [discriminate|exact H2]).
Qed.
Lemma none_with {V W} strat rec ta tb cb (conv : rtree nat W -> option (rtree nat V)) y :
  clones_from 0 (kchildren_with Nat.compare strat rec ta tb cb conv [] [y]).
Proof.
  unfold clones_from, kchildren_with, wmerge, kop_with. cbn.
  destruct (strat 0 1), tb; cbn; try destruct (conv y); cbn; (split; [discriminate|lia]).
Qed.
Lemma one_pure {V W} strat rec ta tb cca ccb ca cb n p q v w c d :
  clones_from n (rec (Node (0 :: p) v c) (Node (0 :: q) w d)) ->
  clones_from n (kchildren_pure (V := V) (W := W) Nat.compare strat rec ta tb cca ccb ca cb [Node (0 :: p) v c] [Node (0 :: q) w d]).
Proof.
  unfold clones_from, kchildren_pure, wmerge, kop_pure. cbn. intros [H1 H2].
  destruct (rec _ _) as [[r| |] u] eqn:E; [|destruct (strat 1 1); cbn; rewrite ?E; cbn; (split; [discriminate|exact H2])|now elim H1].
  destruct (strat 1 1); cbn; rewrite ?E; cbn; (split; [discriminate|exact H2]).
Qed.
Lemma none_pure {V W} strat rec ta tb cca ccb ca cb y :
  clones_from 0 (kchildren_pure (V := V) (W := W) Nat.compare strat rec ta tb cca ccb ca cb [] [y]).
Proof.
  unfold clones_from, kchildren_pure, wmerge, kop_pure. cbn.
  destruct (strat 0 1), tb; cbn; try destruct (cb y); cbn; (split; [discriminate|lia]).
Qed.
Lemma short_broom n m : 2 <= m -> kmat_short (broom (S (S n)) m) 1 = (Ok (broom (S n) m), Work 0 m).
Proof.
  intros H. unfold kmat_short. rewrite broom_vals.
  rewrite (mat_short_ok (kcmp := Nat.compare) true); [reflexivity|now apply broom_canon|]. cbn. lia.
Qed.
Lemma broom_len n m : length (t_prefix (broom n m)) = n.
Proof. apply repeat_length. Qed.
Lemma cpc_broom n m : common_prefix_count Nat.compare [0] (t_prefix (broom (S n) m)) = (1, 1).
Proof. reflexivity. Qed.
Lemma from_un {V} k w (r : tally (rtree nat V)) : clones_from k r -> clones_from k (spend (Work w 0) (tmap t_unsplit r)).
Proof. intros [H1 H2]. split; [|exact H2]. unfold spend, tmap. cbn [fst]. now destruct (fst r). Qed.
Lemma from_bind {X Y} k m (x : X) (f : X -> tally Y) : clones_from k (f x) -> clones_from (m + k) (tbind (Ok x, Work 0 m) f).
Proof. intros [H1 H2]. split; [exact H1|]. unfold tbind. cbn [fst snd wadd w_copy]. lia. Qed.
Lemma from_ret {X Y} k (x : tally X) (g : X -> Y) : clones_from k x -> clones_from k (tbind x (fun c => tret (g c))).
Proof.
  unfold clones_from, tbind. destruct x as [[r| |] w]; cbn [fst snd wadd w_copy tret wk0]; intros [H1 H2].
  - split; [discriminate|lia].
  - split; [discriminate|exact H2].
  - now elim H1.
Qed.
Lemma from_spend {X} k n (x : tally X) : clones_from k x -> clones_from k (spend (Work 0 n) x).
Proof. intros [H1 H2]. split; [exact H1|]. cbn. lia. Qed.

Section Descent.
  Context (strat : nat -> nat -> bool) (m : nat) (M2 : 2 <= m).
  Ltac dive :=
    unfold chain at 1; fold chain; cbn [t_prefix t_children t_value]; rewrite ?cpc_broom, ?broom_len; cbn [length Nat.eqb andb];
    rewrite short_broom by exact M2; apply from_un, from_bind; try apply from_spend; apply from_ret.
  Ltac descend n IH := 
    induction n as [|n IH]; intros fuel H; (destruct fuel as [|fuel]; [lia|]);
    [ rewrite Nat.mul_1_l, <- (Nat.add_0_r m) at 1
    | change (S (S n) * m) with (m + S n * m); specialize (IH fuel ltac:(lia)) ].
  Lemma outer_with_from f n : forall fuel, n < fuel -> clones_from (S n * m) (kouter_with Nat.compare strat f fuel (chain n) (broom (S (S n)) m)).
  Proof.
    descend n IH; cbn [kouter_with]; dive; [apply none_with|]. destruct n; now apply one_with.
  Qed.
  Lemma inner_with_from (f : nat -> nat -> nat * bool) n : forall fuel, n < fuel -> clones_from (S n * m) (kinner_with Nat.compare strat f fuel (chain n) (broom (S (S n)) m)).
  Proof. descend n IH; cbn [kinner_with]; dive; [apply none_with|]. destruct n; now apply one_with. Qed.
  Lemma left_with_from (f : nat -> nat -> nat * bool) n : forall fuel, n < fuel -> clones_from (S n * m) (kleft_with Nat.compare strat f fuel (chain n) (broom (S (S n)) m)).
  Proof. descend n IH; cbn [kleft_with]; dive; [apply none_with|]. destruct n; now apply one_with. Qed.
  Lemma remove_with_from (f : nat -> bool) n : forall fuel, n < fuel -> clones_from (S n * m) (kremove_with Nat.compare strat f fuel (chain n) (broom (S (S n)) m)).
  Proof. descend n IH; cbn [kremove_with]; dive; [apply none_with|]. destruct n; now apply one_with. Qed.
  Lemma retain_with_from (f : nat -> bool) n : forall fuel, n < fuel -> clones_from (S n * m) (kretain_with Nat.compare strat f fuel (chain n) (broom (S (S n)) m)).
  Proof. descend n IH; cbn [kretain_with]; dive; [apply none_with|]. destruct n; now apply one_with. Qed.
  Lemma outer_pure_from f n : forall fuel, n < fuel -> clones_from (S n * m) (kouter_pure Nat.compare strat f fuel (chain n) (broom (S (S n)) m)).
  Proof. descend n IH; cbn [kouter_pure]; dive; [apply none_pure|]. destruct n; now apply one_pure. Qed.
  Lemma inner_pure_from (f : nat -> nat -> option nat) n : forall fuel, n < fuel -> clones_from (S n * m) (kinner_pure Nat.compare strat f fuel (chain n) (broom (S (S n)) m)).
  Proof. descend n IH; cbn [kinner_pure]; dive; [apply none_pure|]. destruct n; now apply one_pure. Qed.
  Lemma left_pure_from (f : nat -> option nat -> option nat) n : forall fuel, n < fuel -> clones_from (S n * m) (kleft_pure Nat.compare strat f fuel (chain n) (broom (S (S n)) m)).
  Proof. descend n IH; cbn [kleft_pure]; dive; [apply none_pure|]. destruct n; now apply one_pure. Qed.
End Descent.

(** the claim with the entries in place of the lengths of the keys *)
Theorem C115_per_entry_refuted :
  forall (strat : nat -> nat -> bool) (c : nat), exists a b : rtree nat nat,
    Canon Nat.compare a /\ Canon Nat.compare b /\
    (forall f, c * (entries a + entries b) < w_copy (snd (krt_outer_combine_with Nat.compare strat f a b))) /\
    (forall f : nat -> nat -> nat * bool, c * (entries a + entries b) < w_copy (snd (krt_inner_combine_with Nat.compare strat f a b))) /\
    (forall f : nat -> nat -> nat * bool, c * (entries a + entries b) < w_copy (snd (krt_left_combine_with Nat.compare strat f a b))) /\
    (forall f : nat -> bool, c * (entries a + entries b) < w_copy (snd (krt_remove_prefix_with Nat.compare strat f a b))) /\
    (forall f : nat -> bool, c * (entries a + entries b) < w_copy (snd (krt_retain_prefix_with Nat.compare strat f a b))) /\
    (forall f, c * (entries a + entries b) < w_copy (snd (krt_outer_combine Nat.compare strat f a b))) /\
    (forall f : nat -> nat -> option nat, c * (entries a + entries b) < w_copy (snd (krt_inner_combine Nat.compare strat f a b))) /\
    (forall f : nat -> option nat -> option nat, c * (entries a + entries b) < w_copy (snd (krt_left_combine Nat.compare strat f a b))).
Proof.
  intros strat c. set (n := 2 * c + 1). exists (chain n), (broom (S (S n)) (S (S n))).
  split; [apply chain_canon|]. split; [apply broom_canon; lia|].
  rewrite chain_entries, broom_entries.
  assert (B : forall X (r : tally X), clones_from (S n * S (S n)) r -> c * (S n + S (S n)) < w_copy (snd r)).
  { intros X r [_ H]. subst n. nia. }
  assert (F : n < S (t_size (chain n) + t_size (broom (S (S n)) (S (S n))))) by (rewrite chain_size; lia).
  split; [intros f; apply B, outer_with_from; [lia|exact F]|].
  split; [intros f; apply B, inner_with_from; [lia|exact F]|].
  split; [intros f; apply B, left_with_from; [lia|exact F]|].
  split; [intros f; apply B, remove_with_from; [lia|exact F]|].
  split; [intros f; apply B, retain_with_from; [lia|exact F]|].
  split; [intros f; apply B, outer_pure_from; [lia|exact F]|].
  split; [intros f; apply B, inner_pure_from; [lia|exact F]|].
  intros f; apply B, left_pure_from; [lia|exact F].
Qed.
Print Assumptions C115_per_entry_refuted.

(** *** The counts are exact *)
(** they are not just upper bounds: two families in which every comparison and every clone is known *)
Definition spends {X} (w : work) (r : tally X) : Prop := (exists x, fst r = Ok x) /\ snd r = w.
Lemma spends_with {V W} strat rec ta tb cb (conv : rtree nat W -> option (rtree nat V)) u p q v w c d :
  spends u (rec (Node (0 :: p) v c) (Node (0 :: q) w d)) ->
  spends (wadd (Work 1 0) u) (kchildren_with Nat.compare strat rec ta tb cb conv [Node (0 :: p) v c] [Node (0 :: q) w d]).
Proof.
  unfold spends, kchildren_with, wmerge, kop_with. cbn. intros [[x H1] H2].
  destruct (rec _ _) as [r0 u0] eqn:E. cbn in H1, H2. subst r0 u0. destruct u as [u1 u2].
  destruct (strat 1 1); cbn; rewrite ?E; cbn; [|split; [eexists; reflexivity|reflexivity]].
  unfold bd_consume. destruct (negb _); cbn; (split; [eexists; reflexivity|reflexivity]).
Qed.
Lemma spends_pure {V W} strat rec ta tb cca ccb ca cb u p q v w c d :
  spends u (rec (Node (0 :: p) v c) (Node (0 :: q) w d)) ->
  spends (wadd (Work 1 0) u) (kchildren_pure (V := V) (W := W) Nat.compare strat rec ta tb cca ccb ca cb [Node (0 :: p) v c] [Node (0 :: q) w d]).
Proof.
  unfold spends, kchildren_pure, wmerge, kop_pure. cbn. intros [[x H1] H2].
  destruct (rec _ _) as [r0 u0] eqn:E. cbn in H1, H2. subst r0 u0. destruct u as [u1 u2].
  destruct (strat 1 1); cbn; rewrite ?E; cbn; (split; [eexists; reflexivity|reflexivity]).
Qed.
Lemma spends_bool {V W} strat rec ta u p q v w c d :
  spends u (rec (Node (0 :: p) v c) (Node (0 :: q) w d)) ->
  spends (wadd (Work 1 0) u) (kbs_merge (V := V) (W := W) Nat.compare strat rec ta [Node (0 :: p) v c] [Node (0 :: q) w d]).
Proof.
  unfold spends, kbs_merge, wmerge, kop_bool. cbn. intros [[x H1] H2].
  destruct (rec _ _) as [r0 u0] eqn:E. cbn in H1, H2. subst r0 u0. destruct u as [u1 u2].
  destruct (strat 1 1); cbn; rewrite ?E; cbn; destruct x; cbn; (split; [eexists; reflexivity|reflexivity]).
Qed.
Lemma sp_un {V} k u (r : tally (rtree nat V)) : spends u r -> spends (wadd (Work k 0) u) (spend (Work k 0) (tmap t_unsplit r)).
Proof. intros [[x H1] <-]. split; [|reflexivity]. exists (t_unsplit x). unfold spend, tmap. cbn [fst]. now rewrite H1. Qed.
Lemma sp_ret {X Y} u (x : tally X) (g : X -> Y) : spends u x -> spends u (tbind x (fun c => tret (g c))).
Proof. intros [[y H1] <-]. unfold tbind. rewrite H1. split; [eexists; reflexivity|]. cbn. destruct (snd x). unfold wadd. cbn. f_equal; lia. Qed.
Lemma sp_spend {X} k u (x : tally X) : spends u x -> spends (wadd (Work 0 k) u) (spend (Work 0 k) x).
Proof. intros [H1 <-]. split; [exact H1|reflexivity]. Qed.
Lemma sp_neg u (x : tally bool) : spends u x -> spends u (tmap negb x).
Proof. intros [[y H1] <-]. split; [|reflexivity]. exists (negb y). unfold tmap. cbn [fst]. now rewrite H1. Qed.
Section Chains.
  Context (strat : nat -> nat -> bool).
  Ltac sane n IH fuel := 
    induction n as [|n IH]; intros fuel H; (destruct fuel as [|fuel]; [lia|]); [|specialize (IH fuel ltac:(lia))].
  Ltac leaf := cbn; unfold kchildren_with, kchildren_pure, kbs_merge, wmerge; cbn; destruct (strat 0 0); cbn; (split; [eexists; reflexivity|reflexivity]).
  Ltac inner := unfold chain at 1 2; fold chain; cbn [t_prefix t_children t_value common_prefix_count keqb Nat.compare length Nat.eqb andb hit];
    unfold keqb; cbn [Nat.compare].
  Ltac sums n := match goal with |- spends ?w _ => change w with (Work (S (2 * S n)) 0) || idtac end.
  Lemma outer_with_chain f n : forall fuel, n < fuel -> spends (Work (2 * n + 1) 0) (kouter_with Nat.compare strat f fuel (chain n) (chain n)).
  Proof.
    sane n IH fuel; cbn [kouter_with]; [leaf|]. inner.
    replace (Work (2 * S n + 1) 0) with (wadd (Work 1 0) (wadd (Work 0 0) (wadd (Work 1 0) (Work (2 * n + 1) 0)))) by (unfold wadd; cbn; f_equal; lia).
    apply sp_un. apply sp_spend, sp_ret. destruct n; now apply spends_with.
  Qed.
  Ltac cw n := replace (Work (2 * S n + 1) 0) with (wadd (Work 1 0) (wadd (Work 1 0) (Work (2 * n + 1) 0))) by (unfold wadd; cbn; f_equal; lia);
    apply sp_un, sp_ret; destruct n; first [now apply spends_with | now apply spends_pure].
  Lemma inner_with_chain (f : nat -> nat -> nat * bool) n : forall fuel, n < fuel -> spends (Work (2 * n + 1) 0) (kinner_with Nat.compare strat f fuel (chain n) (chain n)).
  Proof. sane n IH fuel; cbn [kinner_with]; [leaf|]. inner. cw n. Qed.
  Lemma left_with_chain (f : nat -> nat -> nat * bool) n : forall fuel, n < fuel -> spends (Work (2 * n + 1) 0) (kleft_with Nat.compare strat f fuel (chain n) (chain n)).
  Proof. sane n IH fuel; cbn [kleft_with]; [leaf|]. inner. cw n. Qed.
  Lemma remove_with_chain n : forall fuel, n < fuel -> spends (Work (2 * n + 1) 0) (kremove_with Nat.compare strat (fun _ : nat => false) fuel (chain n) (chain n)).
  Proof. sane n IH fuel; cbn [kremove_with]; [leaf|]. inner. cw n. Qed.
  Lemma retain_with_chain n : forall fuel, n < fuel -> spends (Work (2 * n + 1) 0) (kretain_with Nat.compare strat (fun _ : nat => false) fuel (chain n) (chain n)).
  Proof. sane n IH fuel; cbn [kretain_with]; [leaf|]. inner. cw n. Qed.
  Lemma outer_pure_chain f n : forall fuel, n < fuel -> spends (Work (2 * n + 1) 0) (kouter_pure Nat.compare strat f fuel (chain n) (chain n)).
  Proof.
    sane n IH fuel; cbn [kouter_pure]; [leaf|]. inner.
    replace (Work (2 * S n + 1) 0) with (wadd (Work 1 0) (wadd (Work 0 0) (wadd (Work 1 0) (Work (2 * n + 1) 0)))) by (unfold wadd; cbn; f_equal; lia).
    apply sp_un. apply sp_spend, sp_ret. destruct n; now apply spends_pure.
  Qed.
  Lemma inner_pure_chain (f : nat -> nat -> option nat) n : forall fuel, n < fuel -> spends (Work (2 * n + 1) 0) (kinner_pure Nat.compare strat f fuel (chain n) (chain n)).
  Proof. sane n IH fuel; cbn [kinner_pure]; [leaf|]. inner. cw n. Qed.
  Lemma left_pure_chain (f : nat -> option nat -> option nat) n : forall fuel, n < fuel -> spends (Work (2 * n + 1) 0) (kleft_pure Nat.compare strat f fuel (chain n) (chain n)).
  Proof. sane n IH fuel; cbn [kleft_pure]; [leaf|]. inner. cw n. Qed.
  Lemma is_subset_chain n : forall fuel, n < fuel -> spends (Work (2 * n + 1) 0) (kis_subset0 Nat.compare strat fuel (chain n) (t_prefix (chain n)) (chain n) (t_prefix (chain n))).
  Proof.
    sane n IH fuel; cbn [kis_subset0]; [leaf|].
    change (chain (S n)) with (Node [0] (Some (S n)) [chain n]). cbn [t_prefix t_children t_value common_prefix_count length Nat.eqb andb]. unfold keqb. cbn [Nat.compare t_prefix t_children t_value length Nat.eqb andb].
    replace (Work (2 * S n + 1) 0) with (wadd (Work 1 0) (wadd (Work 1 0) (Work (2 * n + 1) 0))) by (unfold wadd; cbn; f_equal; lia).
    match goal with |- spends (wadd _ ?u) (spend _ ?x) => enough (Q : spends u x) by (destruct Q as [Q1 Q2]; split; [exact Q1|now rewrite <- Q2]) end.
    apply sp_neg. destruct n; apply spends_bool, sp_neg.
    all: exact IH.
  Qed.
End Chains.

(** A chain of n + 1 keys combined with itself: one comparison per component, one per pair of children, no
    clone. *)
Theorem C114_exact :
  forall (strat : nat -> nat -> bool) (n : nat) (fo fi : nat -> nat -> nat * bool)
         (po pi : nat -> nat -> option nat) (pl : nat -> option nat -> option nat),
    let a := chain n in
    snd (krt_outer_combine_with Nat.compare strat fo a a) = Work (2 * n + 1) 0 /\
    snd (krt_inner_combine_with Nat.compare strat fi a a) = Work (2 * n + 1) 0 /\
    snd (krt_left_combine_with Nat.compare strat fi a a) = Work (2 * n + 1) 0 /\
    snd (krt_remove_prefix_with Nat.compare strat (fun _ => false) a a) = Work (2 * n + 1) 0 /\
    snd (krt_retain_prefix_with Nat.compare strat (fun _ => false) a a) = Work (2 * n + 1) 0 /\
    snd (krt_outer_combine Nat.compare strat po a a) = Work (2 * n + 1) 0 /\
    snd (krt_inner_combine Nat.compare strat pi a a) = Work (2 * n + 1) 0 /\
    snd (krt_left_combine Nat.compare strat pl a a) = Work (2 * n + 1) 0 /\
    snd (krt_is_subset Nat.compare strat a a) = Work (2 * n + 1) 0 /\
    snd (krt_intersects Nat.compare strat a a) = Work 1 0.
Proof.
  intros strat n fo fi po pi pl a.
  assert (F : n < S (t_size a + t_size a)) by (unfold a; rewrite chain_size; lia).
  split; [now apply outer_with_chain|]. split; [now apply inner_with_chain|]. split; [now apply left_with_chain|].
  split; [now apply remove_with_chain|]. split; [now apply retain_with_chain|]. split; [now apply outer_pure_chain|].
  split; [now apply inner_pure_chain|]. split; [now apply left_pure_chain|]. split; [now apply is_subset_chain|].
  unfold a. unfold krt_intersects. destruct n; reflexivity.
Qed.
Print Assumptions C114_exact.

(** Two keys that agree in [p] and then part: the common part and the difference are compared, once more where
    the two are put in order. The union clones the other value, into a new tree both; the difference clones the first
    into a new tree; nothing else clones. *)
Theorem C115_exact_fork :
  forall (K V : Type) (kcmp : K -> K -> comparison) (strat : nat -> nat -> bool) (p : list K) (x y : K) (q r : list K) (v w : V)
         (fo fi : V -> V -> V * bool) (fp : V -> bool) (po pi : V -> V -> option V) (pl : V -> option V -> option V),
    OrdLaws kcmp -> kcmp x y <> Eq ->
    let a := rt_single (p ++ x :: q) v in
    let b := rt_single (p ++ y :: r) w in
    snd (krt_outer_combine_with kcmp strat fo a b) = Work (length p + 2) 1 /\
    snd (krt_inner_combine_with kcmp strat fi a b) = Work (length p + 1) 0 /\
    snd (krt_left_combine_with kcmp strat fi a b) = Work (length p + 1) 0 /\
    snd (krt_remove_prefix_with kcmp strat fp a b) = Work (length p + 1) 0 /\
    snd (krt_retain_prefix_with kcmp strat fp a b) = Work (length p + 1) 0 /\
    snd (krt_outer_combine kcmp strat po a b) = Work (length p + 2) 2 /\
    snd (krt_inner_combine kcmp strat pi a b) = Work (length p + 1) 0 /\
    snd (krt_left_combine kcmp strat pl a b) = Work (length p + 1) 1 /\
    snd (krt_intersects kcmp strat a b) = Work (length p + 1) 0 /\
    snd (krt_is_subset kcmp strat a b) = Work (length p + 1) 0.
Proof.
  intros K V kcmp strat p x y q r v w fo fi fp po pi pl L NE a b.
  assert (E : common_prefix_count kcmp (p ++ x :: q) (p ++ y :: r) = (length p, length p + 1)).
  { clear - L NE. induction p as [|z p IH]; cbn [app common_prefix_count].
    - unfold keqb. destruct (kcmp x y); [now elim NE|reflexivity|reflexivity].
    - unfold keqb at 1. rewrite (cmp_refl L), IH. reflexivity. }
  assert (A : (length p =? length (p ++ x :: q)) = false) by (apply Nat.eqb_neq; rewrite app_length; cbn; lia).
  assert (B : (length p =? length (p ++ y :: r)) = false) by (apply Nat.eqb_neq; rewrite app_length; cbn; lia).
  assert (LA : (length p <? length (p ++ x :: q)) = true) by (apply Nat.ltb_lt; rewrite app_length; cbn; lia).
  assert (LB : (length p <? length (p ++ y :: r)) = true) by (apply Nat.ltb_lt; rewrite app_length; cbn; lia).
  assert (SK : forall (z : K) s, skipn (length p) (p ++ z :: s) = z :: s) by (intros z s; rewrite skipn_app, skipn_all, Nat.sub_diag; reflexivity).
  unfold krt_outer_combine_with, krt_inner_combine_with, krt_left_combine_with, krt_remove_prefix_with, krt_retain_prefix_with,
    krt_outer_combine, krt_inner_combine, krt_left_combine, krt_intersects, krt_is_subset, a, b, rt_single.
  cbn [kouter_with kinner_with kleft_with kremove_with kretain_with kouter_pure kinner_pure kleft_pure kintersects0 kis_subset0
       t_prefix t_value t_children]. rewrite E, A, B. cbn [andb].
  assert (MA : mat_short (Node (p ++ x :: q) (Some v) []) (length p) = Ok (Node (x :: q) (Some v) [])) by (cbn [mat_short]; rewrite LA, SK; reflexivity).
  assert (MB : mat_short (Node (p ++ y :: r) (Some w) []) (length p) = Ok (Node (y :: r) (Some w) [])) by (cbn [mat_short]; rewrite LB, SK; reflexivity).
  assert (SP : t_split (Node (p ++ x :: q) (Some v) []) (length p) = Ok (Node (firstn (length p) (p ++ x :: q)) None [Node (x :: q) (Some v) []]))
    by (unfold t_split; rewrite LA, SK; reflexivity).
  assert (W2 : forall n, Work (length p + 1 + (0 + (0 + (1 + 0)))) n = Work (length p + 2) n) by (intros; f_equal; lia).
  assert (W1 : forall n, Work (length p + 1 + 0) n = Work (length p + 1) n) by (intros; f_equal; lia).
  repeat split.
  - unfold kmat_short, ksort_heads. rewrite SP, MB. cbn [tbind fst snd t_children app]. cbn. unfold wadd. cbn. f_equal; lia.
  - cbn. unfold wadd. cbn. apply W1.
  - cbn. unfold wadd. cbn. apply W1.
  - cbn. unfold wadd. cbn. apply W1.
  - cbn. unfold wadd. cbn. apply W1.
  - unfold kmat_short, ksort_heads. rewrite MA, MB. cbn. unfold wadd. cbn. f_equal; lia.
  - cbn. unfold wadd. cbn. apply W1.
  - cbn. unfold wadd. cbn. f_equal; lia.
  - cbn. unfold wadd. cbn. apply W1.
  - cbn. unfold wadd. cbn. apply W1.
Qed.
Print Assumptions C115_exact_fork.

(** *** Non-trivial instances, with their exact counts for both strategies *)
Definition work_a : rtree nat nat :=
  Node [] None [Node [1; 2] (Some 10) [Node [0] (Some 11) []; Node [4; 4] (Some 12) []]; Node [5; 5] (Some 15) []].
Definition work_b : rtree nat nat :=
  Node [1] (Some 1) [Node [2; 4] (Some 2) []; Node [3; 3] None [Node [0] (Some 3) []; Node [7; 7] (Some 4) []]].
Definition all_work (s : nat -> nat -> bool) : list (nat * nat) :=
  map (fun w => (w_cmp w, w_copy w))
  [ snd (krt_outer_combine_with Nat.compare s (fun a b => (a + b, true)) work_a work_b);
    snd (krt_insert Nat.compare s work_a [1; 2; 4; 5] 9);
    snd (krt_inner_combine_with Nat.compare s (fun a b => (a + b, true)) work_a work_b);
    snd (krt_left_combine_with Nat.compare s (fun a b => (a + b, true)) work_a work_b);
    snd (krt_remove_prefix_with Nat.compare s (fun b => b =? 2) work_a work_b);
    snd (krt_retain_prefix_with Nat.compare s (fun b => b =? 2) work_a work_b);
    snd (krt_outer_combine Nat.compare s (fun a b => Some (a + b)) work_a work_b);
    snd (krt_inner_combine Nat.compare s (fun a b => Some (a + b)) work_a work_b);
    snd (krt_left_combine Nat.compare s (fun a b => Some a) work_a work_b);
    snd (krt_intersects Nat.compare s work_a work_b);
    snd (krt_is_subset Nat.compare s work_a work_b) ].
Example C114_witness : Canon Nat.compare work_a /\ Canon Nat.compare work_b /\
  key_sum 14 (listing work_a) + key_sum 14 (listing work_b) + 2 = 138 /\
  key_sum 2 (listing work_a) = 19 /\ key_sum 2 (listing work_b) = 21 /\
  all_work (fun _ _ => true) = [(7, 9); (8, 3); (7, 5); (7, 5); (7, 5); (7, 5); (7, 17); (7, 9); (7, 13); (6, 0); (3, 0)] /\
  all_work (fun _ _ => false) = [(8, 9); (8, 3); (8, 5); (8, 5); (8, 5); (8, 5); (8, 17); (8, 9); (8, 13); (6, 0); (3, 0)].
Proof.
  split; [|split].
  1,2: unfold Canon, work_a, work_b; cbn; repeat split; repeat constructor; cbn; try discriminate; auto; intros; discriminate.
  vm_compute. repeat split.
Qed.

(** Properties C106, C107: how many comparisons of key components a radix tree lookup makes. *)
From Verif Require Import StdFacts RadixSpec RadixReach PropRadix RadixCostModel.

(** *** Specification *)
(** the longest path below the root, in edges *)
Fixpoint height {K V} (t : rtree K V) : nat :=
  let 'Node _ _ cs := t in match cs with [] => 0 | _ => S (list_max (map height cs)) end.
(** the largest number of children of a node *)
Fixpoint fanout {K V} (t : rtree K V) : nat :=
  let 'Node _ _ cs := t in Nat.max (length cs) (list_max (map fanout cs)).
(** the number of keys *)
Fixpoint entries {K V} (t : rtree K V) : nat :=
  let 'Node _ ov cs := t in (match ov with Some _ => 1 | None => 0 end) + list_sum (map entries cs).

Lemma list_max_in l x : In x l -> x <= list_max l.
Proof. intros H. pose proof (proj1 (list_max_le l (list_max l)) (le_n _)) as Q. rewrite Forall_forall in Q. auto. Qed.
Lemma height_child {K V} (t c : rtree K V) : In c (t_children t) -> height c < height t.
Proof.
  destruct t as [p v cs]. cbn [t_children height]. destruct cs as [|d cs]; [intros []|]. intros H.
  pose proof (list_max_in (map height (d :: cs)) (height c) (in_map _ _ _ H)). lia.
Qed.
Lemma height_pos {K V} (t : rtree K V) : t_children t <> [] -> 0 < height t.
Proof. destruct t as [p v [|c cs]]; cbn [t_children height]; [congruence|lia]. Qed.
Lemma fanout_child {K V} (t c : rtree K V) : In c (t_children t) -> fanout c <= fanout t.
Proof.
  destruct t as [p v cs]. cbn [t_children fanout]. intros H.
  pose proof (list_max_in (map fanout cs) (fanout c) (in_map _ _ _ H)). lia.
Qed.
Lemma fanout_here {K V} (t : rtree K V) : length (t_children t) <= fanout t.
Proof. destruct t as [p v cs]. cbn [t_children fanout]. lia. Qed.

(** a successful binary search found an element that answers Eq *)
Lemma bs_loop_hit {T} (f : T -> option comparison) l : forall fuel lo hi cnt i,
  fst (bs_loop f l fuel lo hi cnt) = BsOk i -> exists x, nth_error l i = Some x /\ f x = Some Eq.
Proof.
  induction fuel as [|fuel IH]; intros lo hi cnt i; cbn [bs_loop fst]; [discriminate|].
  destruct (lo <? hi); [|discriminate]. destruct (nth_error l _) as [x|] eqn:Q; [|discriminate].
  destruct (f x) as [[| |]|] eqn:Qf; cbn [fst]; try discriminate; eauto. intros [= <-]. eauto.
Qed.

Lemma skipn_nth_cons {X} (l : list X) : forall n x, nth_error l n = Some x -> skipn n l = x :: skipn (S n) l.
Proof.
  induction l as [|y l IH]; intros [|n] x H; try discriminate; [injection H as ->; reflexivity|].
  cbn [nth_error] in H. cbn [skipn]. now rewrite (IH n x H).
Qed.

Section Cost.
  Context {K V : Type} (kcmp : K -> K -> comparison).
  Notation tree := (rtree K V).

  Lemma cpc_spec (a b : list K) : fst (common_prefix_count kcmp a b) = common_prefix kcmp a b /\
    snd (common_prefix_count kcmp a b) <= length b /\
    (length a - fst (common_prefix_count kcmp a b) = 0 ->
     snd (common_prefix_count kcmp a b) = fst (common_prefix_count kcmp a b)) /\
    fst (common_prefix_count kcmp a b) <= length b /\
    fst (common_prefix_count kcmp a b) <= snd (common_prefix_count kcmp a b).
  Proof.
    revert b. induction a as [|x a IH]; intros [|y b]; cbn [common_prefix_count common_prefix fst snd length];
      try (repeat split; lia).
    destruct (keqb kcmp x y); cbn [fst snd]; [|repeat split; lia].
    specialize (IH b). destruct (common_prefix_count kcmp a b) as [n c]. cbn [fst snd length] in *.
    destruct IH as (-> & H2 & H3 & H4 & H5). repeat split; lia.
  Qed.

  Lemma find_count_erase : forall fuel (t : tree) key, fst (find_count_loop kcmp fuel t key) = find_loop kcmp fuel t key.
  Proof.
    induction fuel as [|fuel IH]; intros t key; cbn [find_count_loop find_loop]; [reflexivity|].
    pose proof (cpc_spec (t_prefix t) key) as (H1 & _). destruct (common_prefix_count kcmp (t_prefix t) key) as [n c].
    cbn [fst] in H1. subst n.
    destruct (_ && _); [reflexivity|]. destruct (_ =? 0); [reflexivity|].
    destruct (_ =? 0); [|reflexivity]. destruct (nth_error key _) as [x|]; [|reflexivity].
    unfold bsearch. destruct (bs_count _ _) as [b c']. cbn [fst].
    destruct b as [i| | |]; try reflexivity. destruct (nth_error (t_children t) i) as [child|]; [|reflexivity].
    rewrite <- IH. now destruct (find_count_loop kcmp fuel child _).
  Qed.

  Lemma find_count_bound : forall fuel (t : tree) key,
    snd (find_count_loop kcmp fuel t key) <=
    length key + Nat.min (length key - Nat.min 1 (common_prefix kcmp (t_prefix t) key)) (height t) * (Nat.log2 (fanout t) + 1).
  Proof.
    induction fuel as [|fuel IH]; intros t key; cbn [find_count_loop snd]; [lia|].
    pose proof (cpc_spec (t_prefix t) key) as (H1 & H2 & H3 & H4 & H5).
    destruct (common_prefix_count kcmp (t_prefix t) key) as [n c]. cbn [fst snd] in *. rewrite <- H1. clear H1.
    destruct (_ && _); [cbn [snd]; lia|]. destruct (Nat.eqb_spec (length key - n) 0) as [Q|Q]; [cbn [snd]; lia|].
    destruct (Nat.eqb_spec (length (t_prefix t) - n) 0) as [Q2|Q2]; [|cbn [snd]; lia].
    specialize (H3 Q2). subst c. clear H2 H5.
    destruct (nth_error key n) as [x|] eqn:Qx; [|cbn [snd]; lia].
    set (probe := fun e : tree => match t_prefix e with h :: _ => Some (kcmp h x) | [] => None end).
    pose proof (bs_count_bound probe (t_children t)) as B.
    assert (B2 : snd (bs_count probe (t_children t)) <= Nat.min 1 (height t) * (Nat.log2 (fanout t) + 1)).
    { destruct (t_children t) as [|d ds] eqn:Qc; cbn [length] in B; [lia|].
      pose proof (height_pos t ltac:(congruence)). pose proof (fanout_here t) as FH. rewrite Qc in FH. cbn [length] in FH.
      replace (Nat.min 1 (height t)) with 1 by lia. pose proof (Nat.log2_le_mono _ _ FH). lia. }
    clear B.
    assert (HIT : forall i, fst (bs_count probe (t_children t)) = BsOk i ->
      exists y, nth_error (t_children t) i = Some y /\ probe y = Some Eq).
    { intros i. unfold bs_count. apply bs_loop_hit. }
    destruct (bs_count probe (t_children t)) as [b c']. cbn [fst snd] in *.
    set (L := Nat.log2 (fanout t) + 1) in *.
    assert (G : n + c' <= length key + Nat.min (length key - Nat.min 1 n) (height t) * L).
    { assert (Nat.min 1 (height t) <= Nat.min (length key - Nat.min 1 n) (height t)) by lia. nia. }
    destruct b as [i|i| |]; cbn [snd]; try exact G.
    destruct (HIT i eq_refl) as (child & Qn & Qp). rewrite Qn.
    specialize (IH child (skipn n key)). destruct (find_count_loop kcmp fuel child (skipn n key)) as [r c2].
    cbn [snd] in *. rewrite skipn_length in IH.
    assert (Hin : In child (t_children t)) by (eapply nth_error_In; eauto).
    pose proof (height_child t child Hin) as HH. pose proof (fanout_child t child Hin) as HF.
    apply Nat.log2_le_mono in HF.
    assert (CP : 1 <= common_prefix kcmp (t_prefix child) (skipn n key)).
    { unfold probe in Qp. destruct (t_prefix child) as [|h p]; [discriminate|].
      rewrite (skipn_nth_cons key n x Qx). cbn [common_prefix]. unfold keqb. injection Qp as ->. lia. }
    replace (Nat.min 1 (common_prefix kcmp (t_prefix child) (skipn n key))) with 1 in IH by lia.
    set (m1 := Nat.min (length key - n - 1) (height child)) in *.
    assert (M : S m1 <= Nat.min (length key - Nat.min 1 n) (height t)) by lia.
    assert (LL : m1 * (Nat.log2 (fanout child) + 1) <= m1 * L) by (apply Nat.mul_le_mono_l; unfold L; lia).
    assert (LM : S m1 * L <= Nat.min (length key - Nat.min 1 n) (height t) * L) by (apply Nat.mul_le_mono_r; exact M).
    assert (LC : c' <= L) by nia. cbn [Nat.mul] in LM. lia.
  Qed.
End Cost.

(** *** C106 *)
Definition lookup_bound {K V} (t : rtree K V) (key : list K) : nat :=
  length key + Nat.min (length key) (height t) * (Nat.log2 (fanout t) + 1).

(** The counting lookups answer what the lookups answer, and count at most this. No assumption:
    neither on the order nor on the tree. *)
Theorem C106_lookup_cost :
  forall (K V : Type) (kcmp : K -> K -> comparison) (t : rtree K V) (key : list K),
    (fst (get_count kcmp t key) = rt_get kcmp t key /\
     snd (get_count kcmp t key) <= lookup_bound t key) /\
    (fst (contains_key_count kcmp t key) = rt_contains_key kcmp t key /\
     snd (contains_key_count kcmp t key) <= lookup_bound t key) /\
    (fst (filter_prefix_count kcmp t key) = rt_filter_prefix kcmp t key /\
     snd (filter_prefix_count kcmp t key) <= lookup_bound t key) /\
    (fst (scan_prefix_count kcmp t key) = rt_scan_prefix kcmp t key /\
     snd (scan_prefix_count kcmp t key) <= lookup_bound t key).
Proof.
  intros K V kcmp t key.
  assert (B : snd (find_count kcmp t key) <= lookup_bound t key).
  { unfold find_count, lookup_bound. etransitivity; [apply find_count_bound|].
    apply Nat.add_le_mono_l, Nat.mul_le_mono_r. lia. }
  pose proof (find_count_erase kcmp (S (t_size t)) t key) as R. fold (t_find kcmp t key) in R.
  fold (find_count kcmp t key) in R.
  unfold get_count, contains_key_count, filter_prefix_count, scan_prefix_count,
    rt_get, rt_contains_key, rt_filter_prefix, rt_scan_prefix.
  destruct (find_count kcmp t key) as [r c]. cbn [fst snd] in *. subst r.
  split; [|split; [|split]]; (split; [reflexivity|exact B]).
Qed.
Print Assumptions C106_lookup_cost.

(** The counts are not too small either. Finding the common beginning of two keys compares every equal
    pair and the first different one, if there is one; a lookup that finds its key has compared every
    component of it, and one more if it had to search among children. *)
Theorem C106_counts_exact :
  forall (K V : Type) (kcmp : K -> K -> comparison),
    (forall a b : list K, snd (common_prefix_count kcmp a b) =
       Nat.min (S (common_prefix kcmp a b)) (Nat.min (length a) (length b))) /\
    (forall (t : rtree K V) key v, rt_get kcmp t key = Ok (Some v) ->
       length key + (if length (t_prefix t) <? length key then 1 else 0) <= snd (get_count kcmp t key)).
Proof.
  intros K V kcmp. split.
  - induction a as [|x a IH]; intros [|y b]; try reflexivity. cbn [common_prefix_count common_prefix length].
    destruct (keqb kcmp x y); [|reflexivity]. specialize (IH b). destruct (common_prefix_count kcmp a b) as [n c]. cbn [snd] in *. lia.
  - assert (G : forall fuel (t : rtree K V) key t' c, find_count_loop kcmp fuel t key = (Ok (Found t'), c) ->
      length key + (if length (t_prefix t) <? length key then 1 else 0) <= c).
    { induction fuel as [|fuel IH]; intros t key t' c; cbn [find_count_loop]; [discriminate|].
      pose proof (cpc_spec kcmp (t_prefix t) key) as (H1 & H2 & H3 & H4 & H5).
      assert (H6 : fst (common_prefix_count kcmp (t_prefix t) key) <= length (t_prefix t)).
      { clear. generalize (t_prefix t) as a, key as b. induction a as [|x a IH]; intros [|y b]; cbn [common_prefix_count fst length]; try lia.
        destruct (keqb kcmp x y); [|cbn; lia]. specialize (IH b). destruct (common_prefix_count kcmp a b). cbn [fst] in *. lia. }
      destruct (common_prefix_count kcmp (t_prefix t) key) as [n c0]. cbn [fst snd] in *.
      destruct (Nat.eqb_spec (length key - n) 0) as [Q|Q], (Nat.eqb_spec (length (t_prefix t) - n) 0) as [Q2|Q2]; cbn [andb].
      - intros [= _ <-]. destruct (Nat.ltb_spec (length (t_prefix t)) (length key)); lia.
      - discriminate.
      - destruct (nth_error key n) as [x|]; [|discriminate].
        unfold bs_count. set (probe := fun e : rtree K V => match t_prefix e with h :: _ => Some (kcmp h x) | [] => None end).
        destruct (bs_loop _ _ _ _ _ _) as [b c'] eqn:B. destruct b as [i|i| |]; try discriminate.
        assert (C' : 1 <= c').
        { assert (HIT : forall fuel lo hi cnt i k, bs_loop probe (t_children t) fuel lo hi cnt = (BsOk i, k) -> S cnt <= k).
          { clear. induction fuel as [|fuel IH]; intros lo hi cnt i k; cbn [bs_loop]; [discriminate|].
            destruct (lo <? hi); [|discriminate]. destruct (nth_error _ _); [|discriminate].
            destruct (probe _) as [[| |]|]; [intros [= _ <-]; lia|intros H; apply IH in H; lia|intros H; apply IH in H; lia|discriminate]. }
          now apply HIT in B. }
        destruct (nth_error (t_children t) i) as [child|]; [|discriminate].
        destruct (find_count_loop kcmp fuel child (skipn n key)) as [r c2] eqn:R. intros [= -> <-]. apply IH in R.
        rewrite skipn_length in R. destruct (length (t_prefix t) <? length key); lia.
      - discriminate. }
    intros t key v H. pose proof (find_count_erase kcmp (S (t_size t)) t key) as R. fold (t_find kcmp t key) in R.
    unfold rt_get in H. unfold get_count, find_count. rewrite <- R in H.
    destruct (find_count_loop kcmp (S (t_size t)) t key) as [r c] eqn:E. cbn [fst snd] in *.
    destruct r as [r| |]; try discriminate. destruct r as [t'| |]; try discriminate. now apply G in E.
Qed.
Print Assumptions C106_counts_exact.

(** with finitely many key components a node has at most as many children *)
Lemma fanout_finite {K V} (kcmp : K -> K -> comparison) (all : list K) (t : rtree K V) :
  OrdLaws kcmp -> (forall x, In x all) -> WO kcmp t -> fanout t <= length all.
Proof.
  intros L HA W. revert W. induction t as [p ov cs IH] using rtree_ind'. unfold WO. cbn [wf fanout]. intros (NE & SS & _ & WC).
    apply Nat.max_lub.
    - assert (H : exists hs, length hs = length cs /\ NoDup hs /\
                 (forall d, In d hs -> exists c q, In c cs /\ t_prefix c = d :: q)).
      { clear IH WC. induction cs as [|c cs IHc]; [exists []; repeat split; [constructor|intros d []]|].
        inversion NE as [|? ? NEc NEcs]; subst. inversion SS as [|? ? SScs SSc]; subst.
        destruct (IHc NEcs SScs) as (hs & HL & ND & HI). destruct (t_prefix c) as [|h q] eqn:Qp; [congruence|].
        exists (h :: hs). split; [cbn; lia|]. split.
        - constructor; [|assumption]. intros Hh. destruct (HI h Hh) as (c2 & q2 & Hc2 & Q2).
          rewrite Forall_forall in SSc. specialize (SSc c2 Hc2). unfold head_lt in SSc. rewrite Qp, Q2 in SSc.
          rewrite (cmp_refl L) in SSc. discriminate.
        - intros d [<-|Hd]; [exists c, q; split; [now left|assumption]|].
          destruct (HI d Hd) as (c2 & q2 & Hc2 & Q2). exists c2, q2. split; [now right|assumption]. }
      destruct H as (hs & HL & ND & _). rewrite <- HL. apply NoDup_incl_length; [assumption|]. intros x _. apply HA.
    - apply list_max_le. clear NE SS. induction cs as [|c cs IHc]; [constructor|].
      cbn [fold_right] in WC. destruct WC as [Wc WC]. inversion IH as [|? ? I1 I2]; subst. constructor; auto.
Qed.

(** With [n] different key components (256 for bytes) a lookup makes at most log2 n + 2 comparisons
    per component of the key, however many keys the tree holds. *)
Theorem C106_finite_components :
  forall (K V : Type) (kcmp : K -> K -> comparison) (all : list K) (t : rtree K V) (key : list K),
    OrdLaws kcmp -> (forall x, In x all) -> WO kcmp t ->
    snd (get_count kcmp t key) <= length key * (Nat.log2 (length all) + 2) /\
    snd (contains_key_count kcmp t key) <= length key * (Nat.log2 (length all) + 2) /\
    snd (filter_prefix_count kcmp t key) <= length key * (Nat.log2 (length all) + 2) /\
    snd (scan_prefix_count kcmp t key) <= length key * (Nat.log2 (length all) + 2).
Proof.
  intros K V kcmp all t key L HA W.
  assert (F : fanout t <= length all).
  { now apply (fanout_finite kcmp). }
  assert (LB : lookup_bound t key <= length key * (Nat.log2 (length all) + 2)).
  { unfold lookup_bound. apply Nat.log2_le_mono in F.
    assert (Nat.min (length key) (height t) <= length key) by lia. nia. }
  destruct (C106_lookup_cost K V kcmp t key) as ((_ & A) & (_ & B) & (_ & C) & _ & D).
  repeat split; lia.
Qed.
Print Assumptions C106_finite_components.

Definition cost_tree : rtree nat nat :=
  Node [] None [Node [1; 2] (Some 10) [Node [0] (Some 11) []; Node [4; 4] (Some 12) []; Node [7] (Some 13) []];
                Node [2] (Some 14) []; Node [5; 5] (Some 15) []].
Example C106_witness :
  WO Nat.compare cost_tree /\ height cost_tree = 2 /\ fanout cost_tree = 3 /\
  get_count Nat.compare cost_tree [1; 2; 4; 4] = (Ok (Some 12), 7) /\ lookup_bound cost_tree [1; 2; 4; 4] = 8 /\
  get_count Nat.compare cost_tree [6] = (Ok None, 2) /\
  filter_prefix_count Nat.compare cost_tree [1; 2; 4] = (Ok (Node [1; 2; 4; 4] (Some 12) []), 6).
Proof.
  split; [|vm_compute; repeat split].
  unfold WO, cost_tree; cbn; repeat split; repeat constructor; cbn; try discriminate; auto.
Qed.

(** *** C107 *)
(** [n + 1] keys, each the beginning of the next *)
Fixpoint chain (n : nat) : rtree nat nat :=
  match n with
  | 0 => Node [0] (Some 0) []
  | S n' => Node [0] (Some (S n')) [chain n']
  end.
Lemma chain_prefix n : t_prefix (chain n) = [0]. Proof. now destruct n. Qed.
Lemma chain_canon n : Canon Nat.compare (chain n).
Proof.
  induction n as [|n IH]; unfold Canon; cbn [chain wf fold_right].
  - repeat split; try constructor; intros; discriminate.
  - split; [constructor; [rewrite chain_prefix; discriminate|constructor]|].
    split; [repeat constructor|]. split; [|split; [exact IH|exact I]].
    intros _. split; [discriminate|]. split; [discriminate|]. constructor; [now destruct n|constructor].
Qed.
Lemma chain_entries n : entries (chain n) = S n.
Proof. induction n as [|n IH]; cbn [chain entries map list_sum fold_right]; [reflexivity|]. unfold list_sum. cbn [map fold_right]. rewrite IH. lia. Qed.
Lemma chain_size n : t_size (chain n) = S n.
Proof. induction n as [|n IH]; cbn [chain t_size map]; [reflexivity|]. unfold list_sum. cbn [map fold_right]. rewrite IH. lia. Qed.
Lemma chain_cost : forall n fuel, n < fuel ->
  exists c, find_count_loop Nat.compare fuel (chain n) (repeat 0 (S n)) = (Ok (Found (chain 0)), c) /\ S n <= c.
Proof.
  induction n as [|n IH]; intros [|fuel] H; try lia.
  - exists 1. split; [reflexivity|lia].
  - destruct (IH fuel ltac:(lia)) as (c & Q & Hc).
    cbn [find_count_loop]. cbn [chain t_prefix repeat common_prefix_count]. unfold keqb. cbn [Nat.compare].
    cbn [length Nat.sub Nat.eqb andb t_children nth_error].
    destruct n as [|n].
    + cbn [repeat] in Q. cbn [chain skipn repeat]. destruct fuel as [|fuel]; [lia|]. cbn. eexists. split; [reflexivity|lia].
    + cbn [repeat length]. unfold bs_count. cbn [length bs_loop Nat.ltb Nat.leb Nat.sub]. 
      change (0 + 1 / 2) with 0. cbn [nth_error]. rewrite chain_prefix. cbn [Nat.compare nth_error skipn].
      change (0 :: 0 :: repeat 0 n) with (repeat 0 (S (S n))). rewrite Q. eexists. split; [reflexivity|lia].
Qed.

(** The module documentation promises filtering by prefix in O(log n). For n = number of keys this is
    false: lookups can take more comparisons than any multiple of the logarithm. *)
Theorem C107_logarithmic_refuted :
  forall a b : nat, exists (t : rtree nat nat) (key : list nat),
    Canon Nat.compare t /\
    (exists v, has t key v) /\
    (forall r c, filter_prefix_count Nat.compare t key = (r, c) -> a * Nat.log2 (entries t) + b < c) /\
    (forall r c, get_count Nat.compare t key = (r, c) -> a * Nat.log2 (entries t) + b < c).
Proof.
  intros a b. set (m := 2 * a + b + 1). set (n := pred (2 ^ (2 * m))).
  assert (P : 2 ^ (2 * m) = S n) by (pose proof (Nat.pow_nonzero 2 (2 * m)); lia).
  exists (chain n), (repeat 0 (S n)).
  assert (B : a * Nat.log2 (entries (chain n)) + b < S n).
  { rewrite chain_entries, <- P. rewrite Nat.log2_pow2 by lia.
    replace (2 * m) with (m + m) at 2 by lia. rewrite Nat.pow_add_r.
    pose proof (Nat.pow_gt_lin_r 2 m ltac:(lia)) as H. nia. }
  destruct (chain_cost n (S (t_size (chain n)))) as (c & Q & Hc); [rewrite chain_size; lia|].
  split; [apply chain_canon|]. split; [|split].
  - exists 0. clear. induction n as [|n IH]; [constructor|].
    change (repeat 0 (S (S n))) with ([0] ++ repeat 0 (S n)). cbn [chain]. econstructor; [now left|exact IH].
  - intros r c0 H. unfold filter_prefix_count, find_count in H. rewrite Q in H. injection H as _ <-. lia.
  - intros r c0 H. unfold get_count, find_count in H. rewrite Q in H. injection H as _ <-. lia.
Qed.
Print Assumptions C107_logarithmic_refuted.

(** What holds instead: at most log2 of the fan-out plus 2 comparisons per component of the key
    (C106), and this is the right order: there are trees with n keys, for every n, with lookups that
    compare each of n components. *)
Theorem C107_linear_in_key_length :
  forall n : nat, exists (t : rtree nat nat) (key : list nat),
    Canon Nat.compare t /\ entries t = S n /\ length key = S n /\
    forall r c, filter_prefix_count Nat.compare t key = (r, c) ->
      length key <= c <= length key * (Nat.log2 (fanout t) + 2).
Proof.
  intros n. exists (chain n), (repeat 0 (S n)).
  split; [apply chain_canon|]. split; [apply chain_entries|]. split; [apply repeat_length|].
  intros r c H. split.
  - destruct (chain_cost n (S (t_size (chain n)))) as (c0 & Q & Hc); [rewrite chain_size; lia|].
    unfold filter_prefix_count, find_count in H. rewrite Q in H. injection H as _ <-. now rewrite repeat_length.
  - destruct (C106_lookup_cost nat nat Nat.compare (chain n) (repeat 0 (S n))) as (_ & _ & (_ & D) & _).
    rewrite H in D. cbn [snd] in D. unfold lookup_bound in D.
    assert (Nat.min (length (repeat 0 (S n))) (height (chain n)) <= length (repeat 0 (S n))) by lia.
    set (k := length (repeat 0 (S n))) in *. nia.
Qed.
Print Assumptions C107_linear_in_key_length.

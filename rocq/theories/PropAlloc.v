(** Property C88: what an operation on an ArcRadixTree copies is bounded by its argument, not by the tree it changes.

    [allocated] counts the vectors of nodes that are created ([Arc::new], which includes the copies made by [Arc::make_mut]).
    The theorems are about ArcRadixTree ([arun .. true ..]): reading a LazyRadixTree may also allocate (C67), which the operations
    of HeapOps.v do not count. *)
From Coq Require Import Permutation.
From Verif Require Import RadixReach PropRadix PropHeapOps.
From Verif Require Export HeapCost.

Section C88.
  Context {K V : Type} {kcmp : K -> K -> comparison} (L : OrdLaws kcmp) (E : OrdEq kcmp) (strat : nat -> nat -> bool).
  Notation tree := (rtree K V).
  Notation mapping := (@mapping K V).

  Lemma mrun_snoc (os : list (api K V)) o : forall ms ms' (A : answers), mrun kcmp (os ++ [o]) ms = Some (ms', A) ->
    exists m1 A1 A2, mrun kcmp os ms = Some (m1, A1) /\ mstep kcmp o m1 = Some (ms', A2).
  Proof.
    induction os as [|o' os IH]; intros ms ms' A; cbn [app mrun].
    - destruct (mstep kcmp o ms) as [[m1 A1]|] eqn:Q; [|discriminate]. intros [= <- <-]. eauto 6.
    - destruct (mstep kcmp o' ms) as [[m1 A1]|]; [|discriminate]. destruct (mrun kcmp (os ++ [o]) m1) as [[m2 A2]|] eqn:Q; [|discriminate].
      intros [= <- <-]. destruct (IH _ _ _ Q) as (m3 & A3 & A4 & -> & Q4). eauto 6.
  Qed.
  (** what both theorems need: the program up to the call, and the call itself *)
  Lemma before (n : nat) (os : list (api K V)) o ms (A : answers) :
    Forall (public kcmp) os -> public kcmp o -> existsb reads_path os = false -> reads_path o = false -> mrun kcmp (os ++ [o]) (repeat None n) = Some (ms, A) ->
    exists vs vs' l F0, (forall i t, rget i vs = Some t -> Canon kcmp t) /\ pstep kcmp strat o vs = Some (vs', l) /\
      forall F, F0 <= F -> exists st out, arun kcmp strat true F os (hinit n) = Some (st, out) /\ good st vs /\ 2 * depth vs <= F.
  Proof.
    intros P Po T To H. destruct (mrun_snoc _ _ _ _ _ H) as (m1 & A1 & A2 & H1 & H2).
    pose proof (run_same L E strat os P _ _ (agree_init n)) as S. rewrite H1, T in S.
    destruct (prun kcmp strat os (repeat None n)) as [[vs out]|] eqn:Q; cbn [same] in S; [|easy]. destruct S as [Ha Hg].
    pose proof (step_same L E strat o vs m1 Po Hg) as S. rewrite H2, To in S. destruct (pstep kcmp strat o vs) as [[vs' l]|] eqn:Qs; cbn [same] in S; [|easy].
    destruct (arun_good kcmp strat true os _ _ _ Q) as (F0 & H0). exists vs, vs', l, (Nat.max F0 (2 * depth vs)).
    split; [|split; auto]. { intros i t Qi. pose proof (agree_get vs m1 i Hg) as G. rewrite Qi in G. destruct (rget i m1); easy. }
    intros F Hf. destruct (H0 F _ ltac:(lia) (init_good n)) as (st & Qr & G). exists st, out. split; auto. split; auto. lia.
  Qed.

  Lemma budget_le (x y : tree) : budget x y <= S (vectors y) + copies y.
  Proof. unfold budget. destruct (t_prefix x); lia. Qed.
  Lemma in_place_alloc (act : nat -> heap K V -> node K V -> node K V -> option (heap K V * node K V)) (pact : tree -> tree -> res tree) i b (st : state K V) vs vs' l F :
    good st vs -> 2 * depth vs <= F -> (forall j t, rget j vs = Some t -> Canon kcmp t) -> p_in_place pact i b vs = Some (vs', l) ->
    (forall F, exists (k : tree -> tree -> nat) (rec : nat -> tree -> tree -> res tree), (forall x y, pact x y = rec (k x y) x y) /\ forall n, opcost (rec n) (act F) F) ->
    forall st' out, in_place (act F) i b st = Some (st', out) -> exists y, holds_tree st b y /\ allocated st st' <= S (vectors y) + copies y.
  Proof.
    intros G Hf Hc H Hop st' out Q. destruct st as [h s]. pose proof (good_St _ _ _ G) as S. pose proof G as (I & Ds & R). cbn [fst snd] in I, Ds, R.
    unfold p_in_place in H. unfold in_place in Q. destruct (rtake i vs) as [[x v1]|] eqn:Q1; [|discriminate]. destruct (rget b v1) as [y|] eqn:Qb; [|discriminate].
    destruct (pact x y) as [x'| |] eqn:Qa; try discriminate.
    destruct (rtake_rel h s vs i x v1 R Q1) as (n & s1 & Qt & D & R1 & P1). rewrite Qt in Q. destruct (rget_rel h s1 v1 b y R1 Qb) as (m & Qm & Dm & Im). rewrite Qm in Q.
    assert (Nb : b <> i). { intros ->. unfold rtake in Q1. destruct (rget i vs) as [z|] eqn:Qz; [|discriminate]. injection Q1 as _ <-. unfold rget in Qz, Qb.
      destruct (nth_error vs i) eqn:Qn; [|discriminate]. rewrite (nth_upd_same vs i _ _ Qn) in Qb. discriminate. }
    exists y. split.
    { exists m. cbn [fst snd]. split; auto. rewrite <- Qm. symmetry. eapply rtake_other; eauto. }
    destruct (act F h n m) as [[h1 n1]|] eqn:Qc; [|discriminate]. destruct (rput i n1 s1) as [s2|]; [|discriminate]. injection Q as <- _.
    destruct (Hop F) as (k & rec & Ek & Hk). rewrite Ek in Qa.
    assert (Gi : rget i vs = Some x) by (eapply rtake_get; eauto). assert (Gb : rget b vs = Some y) by (rewrite <- Qb; symmetry; eapply rtake_other; eauto).
    pose proof (Hk (k x y) h (static :: nodes_of s1) n m x y x') as Co.
    assert (Co' : costs h (act F h n m) (budget x y)).
    { apply Co; auto.
      - eapply inv_perm; [|exact I]. rewrite P1. apply perm_swap.
      - split; auto. now left.
      - right. left. now right.
      - pose proof (depth_get _ _ _ Gi). pose proof (depth_get _ _ _ Gb). lia.
      - eapply wf_NE. apply (Hc i x Gi). }
    specialize (Co' h1 n1 Qc). unfold allocated. cbn [fst]. pose proof (budget_le x y). lia.
  Qed.

  (** ** C88: after any program of public calls, an in-place combination allocates at most a number of vectors that depends only on
      its argument - not on the tree that is changed, nor on how much of it is shared with snapshots. *)
  Theorem C88_in_place_allocations (n : nat) (os : list (api K V)) o b ms (A : answers) :
    Forall (public kcmp) os -> existsb reads_path os = false -> argument o = Some b -> mrun kcmp (os ++ [o]) (repeat None n) = Some (ms, A) ->
    exists F0, forall F, F0 <= F -> exists st out st' y,
      arun kcmp strat true F os (hinit n) = Some (st, out) /\ astep kcmp strat true F o st = Some (st', []) /\
      holds_tree st b y /\ allocated st st' <= S (vectors y) + copies y.
  Proof.
    intros P T Ho H. destruct (before n os o ms A) as (vs & vs' & l & F0 & Hc & Q & H0); auto; [destruct o; easy|destruct o; easy|].
    exists F0. intros F Hf. destruct (H0 F Hf) as (st & out & Q1 & G & Hd). exists st, out.
    destruct (astep_good kcmp strat true o vs vs' l Q F st Hd G) as (st' & Q2 & _). exists st'.
    assert (l = []) as ->.
    { destruct o; try discriminate; cbn [pstep] in Q; unfold p_in_place in Q; destruct (rtake i vs) as [[x v1]|]; try discriminate; destruct (rget _ v1); try discriminate;
        match goal with _ : match ?r with Ok _ => _ | _ => _ end = _ |- _ => destruct r; try discriminate end; destruct (rput _ _ v1); try discriminate; now injection Q. }
    assert (X : exists y, holds_tree st b y /\ allocated st st' <= S (vectors y) + copies y).
    { destruct o; try discriminate; injection Ho as ->; cbn [pstep astep] in Q, Q2; destruct st as [h s].
      - eapply (in_place_alloc (h_outer kcmp strat true f) _ _ _ _ _ _ _ F G Hd Hc Q); [|exact Q2]. intros F1. exists (fun x y => S (t_size x + t_size y)), (outer_with kcmp strat f). split; [reflexivity|]. intros k. apply outer_cost.
      - eapply (in_place_alloc (h_inner kcmp strat true f) _ _ _ _ _ _ _ F G Hd Hc Q); [|exact Q2]. intros F1. exists (fun x y => S (t_size x + t_size y)), (inner_with kcmp strat f). split; [reflexivity|]. intros k. apply inner_cost.
      - eapply (in_place_alloc (h_left kcmp strat true f) _ _ _ _ _ _ _ F G Hd Hc Q); [|exact Q2]. intros F1. exists (fun x y => S (t_size x + t_size y)), (left_with kcmp strat f). split; [reflexivity|]. intros k. apply left_cost.
      - eapply (in_place_alloc (h_remove kcmp strat true f) _ _ _ _ _ _ _ F G Hd Hc Q); [|exact Q2]. intros F1. exists (fun x y => S (t_size x + t_size y)), (remove_with kcmp strat f). split; [reflexivity|]. intros k. apply remove_cost.
      - eapply (in_place_alloc (h_retain kcmp strat true f) _ _ _ _ _ _ _ F G Hd Hc Q); [|exact Q2]. intros F1. exists (fun x y => S (t_size x + t_size y)), (retain_with kcmp strat f). split; [reflexivity|]. intros k. apply retain_cost. }
    destruct X as (y & Hy & Ha). exists y. auto.
  Qed.

  Lemma insert_cost F (k : list K) (v : V) (h : heap K V) C n x x' : Inv h (n :: C) -> St h C -> den h n x -> S (t_size x) < F -> NE x -> rt_insert kcmp strat x k v = Ok x' ->
    costs h (h_insert kcmp strat true F k v h n) (length k + 2).
  Proof.
    intros I S D Hf Ne H h9 x9. unfold h_insert.
    destruct (n_new_ok true k (Some v) [] [] h (n :: C)) as (h1 & tmp & Qn & I1 & D1 & X & M1); auto.
    { eapply St_incl; [|exact S]. intros y Hy. now right. }
    { constructor. }
    rewrite Qn. assert (N1 : h_next h1 = h_next h).
    { unfold n_new, wrap, arc_clone in Qn. destruct (h_cell h 0) as [[rc ks]|]; [|discriminate]. now injection Qn as <- _. }
    assert (Co : costs h1 (h_outer kcmp strat true (fun _ b => (b, true)) F h1 n tmp) (budget x (Node k (Some v) []))).
    { eapply outer_cost; [| | | |exact D1| | |exact H].
      - eapply inv_perm; [|exact I1]. apply perm_swap.
      - eapply St_incl; [|eapply St_frame; [apply frame_ext; exact X|exact S]]. intros y Hy. now right.
      - now apply (den_ext _ _ X).
      - right. left. now left.
      - cbn. lia.
      - exact Ne. }
    destruct (h_outer kcmp strat true (fun _ b => (b, true)) F h1 n tmp) as [[h2 n1]|]; [|discriminate]. specialize (Co h2 n1 eq_refl).
    destruct (drop_all h2 [tmp]) as [h3|] eqn:Qd; [|discriminate]. intros [= <- <-]. rewrite (next_drop _ _ _ Qd).
    pose proof (budget_le x (Node k (Some v) [])). cbn [vectors copies map list_sum fold_right] in *. lia.
  Qed.
  (** in particular one insert allocates at most one vector per component of its key, and two more *)
  Theorem C88_insert_allocations (n : nat) (os : list (api K V)) i k v ms (A : answers) :
    Forall (public kcmp) os -> existsb reads_path os = false -> mrun kcmp (os ++ [AInsert i k v]) (repeat None n) = Some (ms, A) ->
    exists F0, forall F, F0 <= F -> exists st out st',
      arun kcmp strat true F os (hinit n) = Some (st, out) /\ astep kcmp strat true F (AInsert i k v) st = Some (st', []) /\
      allocated st st' <= length k + 2.
  Proof.
    intros P T H. destruct (before n os (AInsert i k v) ms A) as (vs & vs' & l & F0 & Hc & Q & H0); auto; [exact Logic.I|].
    exists F0. intros F Hf. destruct (H0 F Hf) as (st & out & Q1 & G & Hd). exists st, out.
    destruct (astep_good kcmp strat true _ vs vs' l Q F st Hd G) as (st' & Q2 & _). exists st'. split; auto.
    pose proof (good_St _ _ _ G) as S. destruct st as [h s]. pose proof G as (I & Ds & R). cbn [fst snd] in I, Ds, R.
    cbn [pstep] in Q. destruct (rtake i vs) as [[x v1]|] eqn:Qt; [|discriminate]. destruct (rt_insert kcmp strat x k v) as [x'| |] eqn:Qa; try discriminate.
    destruct (rput i x' v1) as [v2|]; [|discriminate]. injection Q as <- <-. split; [exact Q2|].
    cbn [astep] in Q2. destruct (rtake_rel h s vs i x v1 R Qt) as (n0 & s1 & Qs & D & R1 & P1). rewrite Qs in Q2.
    assert (Gi : rget i vs = Some x) by (eapply rtake_get; eauto).
    assert (Co : costs h (h_insert kcmp strat true F k v h n0) (length k + 2)).
    { eapply (insert_cost F k v h (static :: nodes_of s1) n0 x x'); auto.
      - eapply inv_perm; [|exact I]. rewrite P1. apply perm_swap.
      - split; auto. now left.
      - pose proof (depth_get _ _ _ Gi). lia.
      - eapply wf_NE. apply (Hc i x Gi). }
    unfold into_reg in Q2. destruct (h_insert kcmp strat true F k v h n0) as [[h1 n1]|]; [|discriminate]. destruct (rput i n1 s1); [|discriminate].
    injection Q2 as <-. specialize (Co h1 n1 eq_refl). unfold allocated. cbn [fst]. lia.
  Qed.

  (** and taking a snapshot, dropping one, reading, prepending a prefix, filtering by a prefix or creating a single binding allocates nothing *)
  Lemma next_clone h n h' m : node_clone h n = Some (h', m) -> h_next h' = @h_next K V h.
  Proof. unfold node_clone, arc_clone. destruct (n_kids n); [now intros [= <- _]|]. destruct (h_cell h n0) as [[rc ks]|]; [|discriminate]. now intros [= <- _]. Qed.
  Lemma next_empty h h' m : mk_empty true h = Some (h', m) -> h_next h' = @h_next K V h.
  Proof. unfold mk_empty, arc_clone. destruct (h_cell h 0) as [[rc ks]|]; [|discriminate]. now intros [= <- _]. Qed.
  Theorem C88_no_allocation (F : nat) (o : api K V) st st' out : cheap o = true -> astep kcmp strat true F o st = Some (st', out) -> allocated st st' = 0.
  Proof.
    assert (G : forall (st st' : state K V), h_next (fst st') = h_next (fst st) -> allocated st st' = 0) by (intros x y Q; unfold allocated; lia).
    destruct st as [h s]. intros C H. apply G. clear G.
    destruct o as [o|k v j|i k v|i p|i p j|f i b|f i b|f i b|f i b|f i b|f a b j|f a b j|f a b j|i k|i|a b|a b]; try discriminate; cbn [astep] in H.
    - destruct o; try discriminate; cbn [hstep] in H.
      + destruct (mk_empty true h) as [[h1 n1]|] eqn:Q; [|discriminate]. destruct (rput j n1 s); [|discriminate]. injection H as <- _. eapply next_empty; eauto.
      + destruct (rget i s) as [n1|]; [|discriminate]. destruct (node_clone h n1) as [[h1 n2]|] eqn:Q; [|discriminate]. destruct (rput j n2 s); [|discriminate]. injection H as <- _. eapply next_clone; eauto.
      + destruct (rtake i s) as [[n1 s1]|]; [|discriminate]. destruct (drop_all h [n1]) as [h1|] eqn:Q; [|discriminate]. injection H as <- _. eapply next_drop; eauto.
      + destruct (rtake i s) as [[n1 s1]|]; [|discriminate]. destruct (rput j n1 s1); [|discriminate]. now injection H as <- _.
    - unfold into_reg, n_new, wrap, arc_clone in H. destruct (h_cell h 0) as [[rc ks]|]; [|discriminate]. destruct (rput _ _ s); [|discriminate]. now injection H as <- _.
    - destruct (rtake i s) as [[n1 s1]|]; [|discriminate]. unfold into_reg in H. destruct (h_prepend h n1 p); [|discriminate]. destruct (rput _ _ s1); [|discriminate]. now injection H as <- _.
    - destruct (rget i s) as [n1|]; [|discriminate]. unfold into_reg in H. destruct (h_filter_prefix kcmp true F h n1 p) as [[h1 n2]|] eqn:Q; [|discriminate].
      destruct (rput j n2 s); [|discriminate]. injection H as <- _. cbn [fst]. unfold h_filter_prefix in Q. destruct (h_find kcmp F h n1 p) as [[n3|n3 rt|]|]; [| | |discriminate].
      + destruct (node_clone h n3) as [[h2 n4]|] eqn:Q2; [|discriminate]. injection Q as <- _. eapply next_clone; eauto.
      + destruct (rt <=? _); [|discriminate]. destruct (node_clone h n3) as [[h2 n4]|] eqn:Q2; [|discriminate]. destruct (h_prepend _ _ _); [|discriminate]. injection Q as <- _. eapply next_clone; eauto.
      + eapply next_empty; eauto.
    - destruct (rget i s) as [n1|]; [|discriminate]. destruct (h_get kcmp F h n1 k); [|discriminate]. now injection H as <- _.
    - destruct (rget i s) as [n1|]; [|discriminate]. destruct (h_iter F h n1); try discriminate. now injection H as <- _.
    - destruct (rget a s) as [n1|]; [|discriminate]. destruct (rget b s) as [n2|]; [|discriminate]. destruct (h_intersects0 _ _ _ _ _ _ _ _); try discriminate. now injection H as <- _.
    - destruct (rget a s) as [n1|]; [|discriminate]. destruct (rget b s) as [n2|]; [|discriminate]. destruct (h_is_subset0 _ _ _ _ _ _ _ _); try discriminate. now injection H as <- _.
  Qed.
End C88.

(** ** Concrete cases that meet the hypotheses *)
Definition grow (n : nat) : list (api nat nat) := flat_map (fun a => map (fun b => AInsert 0 [a; b] (a + b)) (seq 0 n)) (seq 0 n).
(** 36 bindings below 6 inner nodes, and a snapshot of the tree *)
Definition wide : list (api nat nat) := ABase (OEmpty 0) :: grow 6 ++ [ABase (OClone 0 1)].
Example wide_public : Forall (public N0) wide /\ existsb reads_path wide = false.
Proof. split; [|reflexivity]. unfold wide, grow. cbn. repeat first [apply Forall_nil | apply Forall_cons; [exact Logic.I|]]. Qed.
Example wide_insert : mrun N0 (wide ++ [AInsert 0 [3; 4; 5] 99]) (repeat None 2) <> None.
Proof. now vm_compute. Qed.
(** the insert copies the two vectors on its path, which are shared with the snapshot, and makes one for the new leaf: 3 of at most 5,
    where the tree has 43 nodes *)
Example wide_cost : match arun N0 lin true 100 wide (hinit 2) with
  | Some (st, _) => match astep N0 lin true 100 (AInsert 0 [3; 4; 5] 99) st with Some (st', _) => allocated st st' = 3 | None => False end
  | None => False end.
Proof. now vm_compute. Qed.
Example wide_size : match prun N0 lin wide (repeat None 2) with Some (vs, _) => forall t, rget 0 vs = Some t -> t_size t = 43 | None => False end.
Proof. vm_compute. intros t [= <-]. reflexivity. Qed.
(** an in-place union with a tree of 4 bindings: 6 vectors of at most 18 *)
Definition narrow : list (api nat nat) :=
  wide ++ [ABase (OEmpty 2); AInsert 2 [3; 4; 5] 1; AInsert 2 [3; 4; 6] 2; AInsert 2 [5; 5] 3; AInsert 2 [7] 4].
Example narrow_public : Forall (public N0) narrow /\ existsb reads_path narrow = false /\ argument (AOuterWith (fun a b => (a + b, true)) 0 2 : api nat nat) = Some 2.
Proof.
  split; [|split; reflexivity]. unfold narrow. apply Forall_app. split; [apply wide_public|]. repeat first [apply Forall_nil | apply Forall_cons; [exact Logic.I|]].
Qed.
Example narrow_union : mrun N0 (narrow ++ [AOuterWith (fun a b => (a + b, true)) 0 2]) (repeat None 3) <> None.
Proof. now vm_compute. Qed.
Example narrow_cost : match arun N0 lin true 100 narrow (hinit 3), prun N0 lin narrow (repeat None 3) with
  | Some (st, _), Some (vs, _) =>
      (forall y, rget 2 vs = Some y -> S (vectors y) + copies y = 18) /\
      match astep N0 lin true 100 (AOuterWith (fun a b => (a + b, true)) 0 2) st with Some (st', _) => allocated st st' = 6 | None => False end
  | _, _ => False end.
Proof. vm_compute. split; [|reflexivity]. intros t [= <-]. reflexivity. Qed.
(** C88_no_allocation *)
Example wide_snapshot : cheap (ABase (OClone 0 2) : api nat nat) = true /\
  match arun N0 lin true 100 narrow (hinit 4) with Some (st, _) => astep N0 lin true 100 (ABase (OClone 0 3)) st <> None | None => False end.
Proof. split; [reflexivity|]. now vm_compute. Qed.

Print Assumptions C88_in_place_allocations.
Print Assumptions C88_insert_allocations.
Print Assumptions C88_no_allocation.

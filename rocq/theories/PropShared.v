(** Properties C60, C62 and C68: ArcRadixTree and LazyRadixTree with shared, copy-on-write nodes.

    A program is a list of operations (HeapModel.op) on registers that own trees. [hrun arc] runs it on a
    heap of reference-counted vectors ([arc = true]: ArcRadixTree; [arc = false]: LazyRadixTree);
    [vrun] (HeapSpec.v) runs it on plain trees, where nothing is shared. [holds_tree st i t]: prefix(),
    value() and children() of the tree in register i describe t. *)
From Coq Require Import Permutation.
From Verif Require Export HeapRefine.

Section Shared.
  Context {K V : Type} (arc : bool).
  Notation tree := (rtree K V).

  (** ** C60: sharing is invisible. A program that is meaningful on plain trees (registers and indices exist)
      runs on the heap without touching freed memory, and every register holds exactly the tree it would
      hold if nothing were shared. *)
  Theorem C60_sharing_is_invisible (n : nat) (os : list (op K V)) (vs : regs tree) :
    vrun os (repeat None n) = Some vs ->
    exists st, hrun arc os (hinit n) = Some st /\ forall i t, holds_tree st i t <-> rget i vs = Some t.
  Proof.
    intros H. destruct (run_good arc os _ _ _ (init_good n) H) as (st & -> & G). exists st. split; auto.
    intros i t. now apply good_holds.
  Qed.

  (** a snapshot stays what it was, whatever is done to the other trees *)
  Theorem C60_snapshot_isolated (n : nat) (os1 os2 : list (op K V)) (i j : nat) vs :
    vrun (os1 ++ OClone i j :: os2) (repeat None n) = Some vs ->
    exists st1 st2, hrun arc (os1 ++ [OClone i j]) (hinit n) = Some st1 /\ hrun arc os2 st1 = Some st2 /\
      exists t, holds_tree st1 i t /\ holds_tree st1 j t /\
        ((forall o, In o os2 -> ~ In j (changes o)) -> holds_tree st2 j t) /\
        ((forall o, In o os2 -> ~ In i (changes o)) -> holds_tree st2 i t).
  Proof.
    intros H.
    assert (Vapp : forall l1 l2 s s2, vrun (l1 ++ l2) s = Some s2 -> exists s1 : regs tree, vrun l1 s = Some s1 /\ vrun l2 s1 = Some s2).
    { induction l1 as [|o l1 IH]; intros l2 s s2 Hr; cbn [vrun app] in *; [eauto|]. destruct (vstep o s); [|discriminate]. eauto. }
    replace (os1 ++ OClone i j :: os2) with ((os1 ++ [OClone i j]) ++ os2) in H by now rewrite <- app_assoc.
    destruct (Vapp _ _ _ _ H) as (v1 & H1 & H2).
    destruct (run_good arc _ _ _ _ (init_good n) H1) as (st1 & Q1 & G1).
    destruct (run_good arc _ _ _ _ G1 H2) as (st2 & Q2 & G2). exists st1, st2. split; auto. split; auto.
    destruct (Vapp _ _ _ _ H1) as (v0 & H0 & H01). cbn [vrun] in H01. destruct (vstep (OClone i j) v0) as [v1'|] eqn:Q; [|discriminate].
    injection H01 as ->. cbn [vstep] in Q. destruct (rget i v0) as [t|] eqn:Qi; [|discriminate]. exists t.
    assert (Hj : rget j v1 = Some t).
    { unfold rput in Q. unfold rget. destruct (nth_error v0 j) as [[?|]|] eqn:Qj; try discriminate. injection Q as <-. now rewrite (nth_upd_same _ _ _ _ Qj). }
    assert (Hi : rget i v1 = Some t).
    { destruct (Nat.eq_dec i j) as [->|N]; auto. now rewrite (rput_other _ _ _ _ _ Q N). }
    rewrite !(good_holds _ _ _ _ G1), !(good_holds _ _ _ _ G2). split; auto. split; auto.
    split; intros F; rewrite (vrun_frame os2 _ F _ _ H2); auto.
  Qed.

  (** the vector that all childless ArcRadixTrees share is empty for ever *)
  Theorem C60_shared_empty_stays_empty (n : nat) (os : list (op K V)) vs st :
    vrun os (repeat None n) = Some vs -> hrun arc os (hinit n) = Some st ->
    exists rc, h_cell (fst st) 0 = Some (S rc, []).
  Proof.
    intros H Q. destruct (run_good arc os _ _ _ (init_good n) H) as (st' & Q' & I & D & _). rewrite Q in Q'. injection Q' as <-.
    inversion D; subst. match goal with H : dens _ _ _ |- _ => inversion H; subst end.
    pose proof (inv_count _ _ I 0) as C. match goal with H : h_cell _ 0 = _ |- _ => rewrite H in C |- * end.
    destruct C as [_ C]. destruct rc; [lia|eauto].
  Qed.

  (** ** C68: memory. After any program, counts are exact and every live vector is reachable from a register
      or is the shared empty one; once all registers are dropped nothing else is left. *)
  Theorem C68_counts_exact (n : nat) (os : list (op K V)) vs st :
    vrun os (repeat None n) = Some vs -> hrun arc os (hinit n) = Some st ->
    forall a rc ns, h_cell (fst st) a = Some (rc, ns) ->
      rc = (if a =? 0 then 1 else 0)
           + list_sum (map (fun r => match r with Some m => ref a m | None => 0 end) (snd st))
           + list_sum (map (fun b => match h_cell (fst st) b with Some (_, ms) => list_sum (map (ref a) ms) | None => 0 end) (seq 0 (h_next (fst st))))
      /\ 0 < rc.
  Proof.
    intros H Q a rc ns Ha. destruct (run_good arc os _ _ _ (init_good n) H) as (st' & Q' & I & D & _). rewrite Q in Q'. injection Q' as <-.
    pose proof (inv_count _ _ I a) as C. rewrite Ha in C. destruct C as [C P]. split; auto.
    rewrite cnt_cons in C. replace (ref a static) with (if a =? 0 then 1 else 0) in C by (destruct a; reflexivity).
    replace (list_sum (map _ (snd st))) with (cnt a (nodes_of (snd st))); [exact C|].
    clear. induction (snd st) as [|[m|] s IH]; unfold nodes_of in *; [reflexivity| |exact IH].
    cbn [flat_map olist app]. rewrite cnt_cons, IH. reflexivity.
  Qed.
  Theorem C68_live_is_reachable (n : nat) (os : list (op K V)) vs st :
    vrun os (repeat None n) = Some vs -> hrun arc os (hinit n) = Some st ->
    forall a, h_cell (fst st) a <> None -> a = 0 \/ exists i m, rget i (snd st) = Some m /\ reach (fst st) m a.
  Proof.
    intros H Q a Ha. destruct (run_good arc os _ _ _ (init_good n) H) as (st' & Q' & I & D & _). rewrite Q in Q'. injection Q' as <-.
    destruct (h_cell (fst st) a) as [[rc ns]|] eqn:Qa; [|congruence].
    destruct (live_reach _ _ I a rc ns Qa) as (m & [<-|Hm] & R).
    - left. inversion R as [? ? Hk|? b rb nb m b' Hk Hb Hm R']; subst; [cbn in Hk; congruence|]. exfalso.
      cbn in Hk. injection Hk as <-. inversion D; subst. match goal with H : dens _ _ _ |- _ => inversion H; subst end.
      match goal with H : h_cell _ 0 = Some (_, []) |- _ => rewrite Hb in H; injection H as -> -> end. easy.
    - right. apply in_flat_map in Hm as (o & Hy & Ho). destruct o as [y|]; [|easy]. destruct Ho as [<-|[]]. apply In_nth_error in Hy as (i & Hi). exists i, y.
      split; auto. unfold rget. now rewrite Hi.
  Qed.
  Theorem C68_no_leak (n : nat) (os : list (op K V)) vs st :
    vrun os (repeat None n) = Some vs -> hrun arc os (hinit n) = Some st -> (forall i, rget i vs = None) ->
    forall a, h_cell (fst st) a = if a =? 0 then Some (1, []) else None.
  Proof.
    intros H Q E a.
    assert (Er : forall i, rget i (snd st) = None).
    { intros i. destruct (C60_sharing_is_invisible n os vs H) as (st' & Q' & _). rewrite Q in Q'. injection Q' as <-.
      destruct (run_good arc os _ _ _ (init_good n) H) as (st' & Q' & _ & _ & R). rewrite Q in Q'. injection Q' as <-.
      pose proof (rel_nth _ _ _ i R) as N. specialize (E i). unfold rget in *.
      destruct (nth_error (snd st) i) as [[m|]|]; auto. destruct (nth_error vs i) as [[t|]|]; easy. }
    destruct (Nat.eqb_spec a 0) as [->|N].
    - destruct (C60_shared_empty_stays_empty n os vs st H Q) as (rc & Hc). rewrite Hc. do 2 f_equal.
      destruct (C68_counts_exact n os vs st H Q 0 _ _ Hc) as [C _].
      assert (Z1 : forall s : regs (node K V), (forall i, rget i s = None) -> list_sum (map (fun r => match r with Some m => ref 0 m | None => 0 end) s) = 0).
      { induction s as [|[m|] s IH]; intros F; auto; [specialize (F 0); discriminate|]. simpl. apply IH. intros i. apply (F (S i)). }
      assert (Z2 : forall l, list_sum (map (fun b => match h_cell (fst st) b with Some (_, ms) => list_sum (map (ref 0) ms) | None => 0 end) l) = 0).
      { induction l as [|b l IH]; auto. cbn [map list_sum fold_right]. fold (list_sum (map (fun b => match h_cell (fst st) b with Some (_, ms) => list_sum (map (ref 0) ms) | None => 0 end) l)).
        rewrite IH. destruct (h_cell (fst st) b) as [[rb nb]|] eqn:Qb; auto.
        destruct (C68_live_is_reachable n os vs st H Q b) as [->|(i & m & Hm & _)]; [congruence| |rewrite Er in Hm; discriminate].
        rewrite Hc in Qb. injection Qb as <- <-. reflexivity. }
      rewrite Z1, Z2 in C by auto. cbn in C. lia.
    - destruct (h_cell (fst st) a) as [c|] eqn:Qa; auto.
      destruct (C68_live_is_reachable n os vs st H Q a) as [->|(i & m & Hm & _)]; [congruence|congruence|rewrite Er in Hm; discriminate].
  Qed.
End Shared.

Section Lazy.
  Context {K V : Type}.
  Notation tree := (rtree K V).

  (** ** C62: a lazily loaded node. After any program that does not change register j, however much of the tree was
      materialised through it or through its clones, it still describes the archived tree. *)
  Theorem C62_lazy_tree_is_archive (n : nat) (os1 os2 : list (op K V)) (t : tree) (j : nat) vs :
    vrun (os1 ++ OArchive t j :: os2) (repeat None n) = Some vs -> (forall o, In o os2 -> ~ In j (changes o)) ->
    exists st, hrun false (os1 ++ OArchive t j :: os2) (hinit n) = Some st /\ holds_tree st j t.
  Proof.
    intros H F. destruct (C60_sharing_is_invisible false n _ vs H) as (st & Q & G). exists st. split; auto. apply G.
    assert (Vapp : forall l1 l2 s s2, vrun (l1 ++ l2) s = Some s2 -> exists s1 : regs tree, vrun l1 s = Some s1 /\ vrun l2 s1 = Some s2).
    { induction l1 as [|o l1 IH]; intros l2 s s2 Hr; cbn [vrun app] in *; [eauto|]. destruct (vstep o s); [|discriminate]. eauto. }
    destruct (Vapp _ _ _ _ H) as (v0 & _ & H2). cbn [vrun vstep] in H2. destruct (rput j t v0) as [v1|] eqn:Q1; [|discriminate].
    rewrite (vrun_frame os2 j F _ _ H2). unfold rput in Q1. unfold rget. destruct (nth_error v0 j) as [[?|]|] eqn:Qj; try discriminate.
    injection Q1 as <-. now rewrite (nth_upd_same _ _ _ _ Qj).
  Qed.
  (** and so does the result of a conversion from a RadixTree or an archived tree, for both tree types *)
  Theorem C62_conversion_denotes (arc w : bool) (n : nat) (os1 os2 : list (op K V)) (t : tree) (j : nat) vs :
    vrun (os1 ++ OFrom w t j :: os2) (repeat None n) = Some vs -> (forall o, In o os2 -> ~ In j (changes o)) ->
    exists st, hrun arc (os1 ++ OFrom w t j :: os2) (hinit n) = Some st /\ holds_tree st j t.
  Proof.
    intros H F. destruct (C60_sharing_is_invisible arc n _ vs H) as (st & Q & G). exists st. split; auto. apply G.
    assert (Vapp : forall l1 l2 s s2, vrun (l1 ++ l2) s = Some s2 -> exists s1 : regs tree, vrun l1 s = Some s1 /\ vrun l2 s1 = Some s2).
    { induction l1 as [|o l1 IH]; intros l2 s s2 Hr; cbn [vrun app] in *; [eauto|]. destruct (vstep o s); [|discriminate]. eauto. }
    destruct (Vapp _ _ _ _ H) as (v0 & _ & H2). cbn [vrun vstep] in H2. destruct (rput j t v0) as [v1|] eqn:Q1; [|discriminate].
    rewrite (vrun_frame os2 j F _ _ H2). unfold rput in Q1. unfold rget. destruct (nth_error v0 j) as [[?|]|] eqn:Qj; try discriminate.
    injection Q1 as <-. now rewrite (nth_upd_same _ _ _ _ Qj).
  Qed.
  (** what "describes t" gives a reader: prefix(), value(), and children() — which materialises the children when they
      are still in the archive — agree with t, at the root and, through the children, everywhere below *)
  Theorem C62_reading (st : state K V) (i : nat) (t : tree) : holds_tree st i t ->
    exists m, rget i (snd st) = Some m /\ n_prefix m = t_prefix t /\ n_value m = t_value t /\
      exists h' a rc ns, force (fst st) m = (h', a) /\ h_cell h' a = Some (rc, ns) /\ length ns = length (t_children t) /\
        forall k c, nth_error ns k = Some c -> exists u, nth_error (t_children t) k = Some u /\
          n_prefix c = t_prefix u /\ n_value c = t_value u /\ den h' c u.
  Proof.
    intros (m & Q & D). exists m. split; auto.
    assert (Hd : forall h (m : node K V) t, den h m t -> n_prefix m = t_prefix t /\ n_value m = t_value t) by (intros h m' t' [|]; auto).
    destruct (Hd _ _ _ D). split; auto. split; auto. inversion D; subst; cbn [force n_kids t_children].
    - eexists _, _, _, _. split; [reflexivity|]. cbn [h_cell]. rewrite Nat.eqb_refl. split; [reflexivity|]. split; [apply map_length|].
      intros k c Hc. rewrite nth_error_map in Hc. destruct (nth_error ts k) as [[p' v' us]|]; [|discriminate]. injection Hc as <-.
      eexists. split; [reflexivity|]. split; [reflexivity|]. split; [reflexivity|]. constructor.
    - eexists _, _, _, _. split; [reflexivity|]. split; [eassumption|]. split; [eapply dens_length; eauto|].
      intros k c Hc. match goal with H : dens _ _ _ |- _ => pose proof (dens_nth _ _ _ k H) as N end. rewrite Hc in N.
      destruct (nth_error ts k) as [u|]; [|easy]. exists u. destruct (Hd _ _ _ N). auto.
  Qed.

  (** ** C67: "the children are lazy loaded at the time of first access" (lazy_radix_tree.rs:15-20, 30) would mean that
      converting an archived tree allocates for its root only. It is false: the conversion copies the whole tree. *)
  Fixpoint t_nodes (t : tree) : nat := let 'Node _ _ ts := t in S (list_sum (map t_nodes ts)).
  Theorem C67_conversion_is_eager (w : bool) (t : tree) : forall (h h' : heap K V) (m : node K V),
    of_tree false w h t = Some (h', m) -> h_next h' = h_next h + t_nodes t.
  Proof.
    induction t as [p v ts IH] using rtree_ind'. intros h h' m. cbn [of_tree].
    match goal with |- context [match ?g h ts with _ => _ end] => set (go := g) end.
    assert (G : forall h h' ns, go h ts = Some (h', ns) -> h_next h' = h_next h + list_sum (map t_nodes ts)).
    { clear h h' m. induction IH as [|t ts Ht _ IH]; intros h h' ns; cbn [go].
      - intros [= <- <-]. cbn. lia.
      - destruct (of_tree false w h t) as [[h1 n]|] eqn:Q; [|discriminate]. apply Ht in Q. fold go.
        destruct (go h1 ts) as [[h2 ns']|] eqn:Q2; [|discriminate]. apply IH in Q2. intros [= <- <-]. cbn [map list_sum fold_right] in *.
        fold (list_sum (map t_nodes ts)). lia. }
    destruct (go h ts) as [[h1 ns]|] eqn:Q; [|discriminate]. apply G in Q. cbn [t_nodes].
    replace (if w then wrap false h1 ns else Some (arc_new h1 ns)) with (Some (arc_new h1 ns)) by (destruct w, ns; reflexivity).
    intros [= <- <-]. cbn. lia.
  Qed.
End Lazy.
Theorem C67_lazy_loading_refuted :
  ~ (forall (t : rtree nat nat) (h h' : heap nat nat) (m : node nat nat),
       of_tree false false h t = Some (h', m) -> h_next h' <= h_next h + 1).
Proof.
  intros H. specialize (H (Node [] None [Node [1] (Some 5) []]) (MkH 1 (fun _ => None))). cbn in H.
  specialize (H _ _ eq_refl). cbn in H. lia.
Qed.

(** ** Concrete cases that meet the hypotheses *)
(** build a leaf 0, a tree 1 over it, clone it to 2, change the leaf below 2 *)
Definition demo : list (op nat nat) :=
  [ONew [7; 8] (Some 70) [] 0; ONew [] None [0] 1; OClone 1 2; OValue 2 [0] (Some 71)].
Example demo_shares : exists n m h, hrun true (firstn 3 demo) (hinit 3) = Some (h, [None; Some n; Some m]) /\ n_kids n = n_kids m /\ n_kids n = inr 1 /\
  h_cell h 1 = Some (2, [MkN [7; 8] (Some 70) (inr 0)]).
Proof. eexists _, _, _. now vm_compute. Qed.
Example demo_valid : vrun demo (repeat None 3) = Some [None; Some (Node [] None [Node [7; 8] (Some 70) []]); Some (Node [] None [Node [7; 8] (Some 71) []])].
Proof. now vm_compute. Qed.
Example demo_copied : exists h, hrun true demo (hinit 3) = Some (h, [None; Some (MkN [] None (inr 1)); Some (MkN [] None (inr 2))]) /\
  h_cell h 1 = Some (1, [MkN [7; 8] (Some 70) (inr 0)]) /\ h_cell h 2 = Some (1, [MkN [7; 8] (Some 71) (inr 0)]).
Proof. eexists. now vm_compute. Qed.
Example demo_dropped : exists vs, vrun (demo ++ [ODrop 1; ODrop 2]) (repeat None 3) = Some vs /\ forall i, rget i vs = None.
Proof. eexists. split; [now vm_compute|]. intros [|[|[|[|i]]]]; reflexivity. Qed.
(** an archived tree, two clones sharing a materialised vector, touched through one of them, a child taken out of the other *)
Definition demo_lazy : list (op nat nat) :=
  [OArchive (Node [] None [Node [1] (Some 5) [Node [2] (Some 6) []]; Node [3] None [Node [4] (Some 7) []]]) 0;
   OTouch 0 []; OClone 0 1; OTouch 1 [1; 0]; OSub 1 [0] 0 2; ORemove 1 [] 0 3].
Example demo_lazy_valid : exists vs, vrun demo_lazy (repeat None 4) = Some vs /\ forall o, In o (tl demo_lazy) -> ~ In 0 (changes o).
Proof.
  eexists. split; [now vm_compute|]. intros o Ho. cbn in Ho. intuition subst; cbn in *; intuition discriminate.
Qed.

Print Assumptions C60_sharing_is_invisible.
Print Assumptions C60_snapshot_isolated.
Print Assumptions C60_shared_empty_stays_empty.
Print Assumptions C68_counts_exact.
Print Assumptions C68_live_is_reachable.
Print Assumptions C68_no_leak.
Print Assumptions C62_lazy_tree_is_archive.
Print Assumptions C62_conversion_denotes.
Print Assumptions C62_reading.
Print Assumptions C67_conversion_is_eager.
Print Assumptions C67_lazy_loading_refuted.

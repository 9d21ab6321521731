(** C109: outer_combine, inner_combine and left_combine of radix trees with closures that have effects
    and may panic. Specification: RadixPureEffSpec.v. *)
From Verif Require Import RadixPureEffSpec RadixPureEffModel RadixReach RadixEffComb RadixPureEffFacts PropRadixEff PropRadix.

Section PropPureEff.
  Context {K : Type} (kcmp : K -> K -> comparison) (L : OrdLaws kcmp) (EQ : OrdEq kcmp).
  Context (strat : nat -> nat -> bool) {E : Type}.
  Notation WO := (WO kcmp).
  Notation Canon := (Canon kcmp).

  (** ** the two walks agree *)
  Section Walk.
    Context {V W : Type} (ka : bool) (hb : W -> option V) (f : clos E (V * W) (option V)).
    Definition of_join (r : list (list K * V) * E * ending (K := K) V) : E * cres (list (list K * V)) :=
      match r with (o, e, None) => (e, Ret o) | (_, e, Some _) => (e, Throw) end.
    Lemma of_join_emit l r : of_join (emit l r) = prepending l (of_join r).
    Proof. destruct r as [[o e] [?|]]; reflexivity. Qed.
    Lemma pairs_join a : forall b e, pairs kcmp ka hb f a b e = of_join (join kcmp ka hb (as_m f) a b e).
    Proof.
      induction a as [|x a IH].
      - induction b as [|y b IHb]; intros e; [reflexivity|]. cbn. rewrite of_join_emit. unfold right_only. now rewrite <- IHb.
      - induction b as [|y b IHb]; intros e.
        + cbn. rewrite of_join_emit. unfold left_only. now rewrite <- IH.
        + cbn. destruct (lex kcmp (fst x) (fst y)).
          * unfold as_m at 1. destruct (f e (snd x, snd y)) as [e' [[v|]|]]; [rewrite of_join_emit; now rewrite <- IH|apply IH|reflexivity].
          * rewrite of_join_emit. unfold left_only. now rewrite <- IH.
          * rewrite of_join_emit. unfold right_only. now rewrite <- IHb.
    Qed.
  End Walk.

  (** the call gives what the walk says: a new tree with those entries, in the world the calls left,
      or the panic of the closure and nothing *)
  Definition builds {V} (canon : Prop) (says : E * cres (list (list K * V))) (r : option (E * cres (rtree K V))) : Prop :=
    match says with
    | (e, Ret l) => exists t, r = Some (e, Ret t) /\ listing t = l /\ WO t /\ (canon -> Canon t)
    | (e, Throw) => r = Some (e, Throw)
    end.
  Lemma builds_intro {V W} ka hb (f : clos E (V * W) (option V)) canon (a : rtree K V) (b : rtree K W) e r :
    joins kcmp ka hb (as_m f) canon a b e r -> builds canon (pairs kcmp ka hb f (listing a) (listing b) e) (forget r).
  Proof.
    unfold joins, builds. rewrite pairs_join. destruct (join _ _ _ _ _ _ _) as [[o e'] [[k v]|]]; cbn [of_join].
    - intros (t & -> & _). reflexivity.
    - intros (t & -> & H). exists t. auto.
  Qed.

  Theorem C109_outer_combine {V} (f : clos E (V * V) (option V)) (a b : rtree K V) e : WO a -> WO b ->
    builds (Canon a /\ Canon b) (pairs kcmp true Some f (listing a) (listing b) e) (prt_outer_combine kcmp strat f a b e).
  Proof.
    intros Wa Wb. unfold prt_outer_combine. rewrite (pouter_eq kcmp EQ) by auto. apply builds_intro.
    now apply (C74_outer_combine_with kcmp L EQ strat (as_m f) a b e).
  Qed.
  Theorem C109_inner_combine {V W} (f : clos E (V * W) (option V)) (a : rtree K V) (b : rtree K W) e : WO a -> WO b ->
    builds (Canon a) (pairs kcmp false (fun _ => None) f (listing a) (listing b) e) (prt_inner_combine kcmp strat f a b e).
  Proof.
    intros Wa Wb. unfold prt_inner_combine. rewrite (pinner_eq kcmp EQ) by auto. apply builds_intro.
    now apply (C74_inner_combine_with kcmp L EQ strat (as_m f) a b e).
  Qed.

  (** ** left_combine: the closure is called for the keys of a at which b has a node *)
  Lemma nodes_tag {W} (t : rtree K W) : listing (tag t) = nodes t.
  Proof.
    induction t as [p ow cs IH] using rtree_ind'. cbn [tag listing nodes]. f_equal. cbn [app]. f_equal.
    induction IH as [|c cs Hc _ IHl]; cbn [map flat_map]; [auto|]. now rewrite Hc, IHl.
  Qed.
  Theorem C109_left_combine {V W} (f : clos E (V * option W) (option V)) (a : rtree K V) (b : rtree K W) e : WO a -> WO b ->
    builds (Canon a) (pairs kcmp true (fun _ => None) f (listing a) (nodes b) e) (prt_left_combine kcmp strat f a b e).
  Proof.
    intros Wa Wb. unfold prt_left_combine. rewrite (pleft_eq kcmp EQ) by auto. rewrite <- (tag_size b), <- nodes_tag. apply builds_intro.
    apply (C74_left_combine_with kcmp L EQ strat (as_m f) a (tag b) e); auto. now apply tag_wf.
  Qed.

  (** the nodes in terms of the entries *)
  Lemma in_nodes {W} (t : rtree K W) : forall k ow, In (k, ow) (nodes t) <-> at_node t k ow.
  Proof.
    induction t as [p o cs IH] using rtree_ind'. intros k ow. cbn [nodes map]. split.
    - intros [[= <- <-]|H].
      + rewrite app_nil_r. apply at_here.
      + apply in_map_iff in H as ([k' o'] & [= <- <-] & H). apply in_flat_map in H as (c & Hc & H).
        rewrite Forall_forall in IH. apply (IH c Hc) in H. now apply at_child with (c := c).
    - intros H. inversion H as [? ? ?|? ? ? c k' ? Hc H']; subst.
      + left. unfold under. cbn. now rewrite app_nil_r.
      + right. apply in_map_iff. exists (k', ow). split; [reflexivity|]. apply in_flat_map. exists c. split; [auto|].
        rewrite Forall_forall in IH. now apply (IH c Hc).
  Qed.
  Lemma canon_nonempty_has {W} (t : rtree K W) : Canon t -> t_is_empty t = false -> exists k v, has t (t_prefix t ++ k) v.
  Proof.
    induction t as [p [w|] cs IH] using rtree_ind'; intros C N.
    - exists [], w. cbn [t_prefix]. rewrite app_nil_r. apply has_here.
    - destruct cs as [|c cs]; [discriminate|]. pose proof (wf_wfc _ _ C) as Cs. cbn [t_children] in Cs.
      destruct (wfc_In _ _ c Cs (or_introl eq_refl)) as (H1 & H2 & H3). inversion IH as [|? ? Hc _]; subst.
      destruct (Hc H2 (H3 eq_refl)) as (k & v & H). exists (t_prefix c ++ k), v. cbn [t_prefix]. apply has_child with (c := c); [now left|auto].
  Qed.
  Lemma at_node_holds {W} (t : rtree K W) k ow : WO t -> at_node t k ow -> holds t k ow.
  Proof.
    intros Wt H. apply (holds_lk EQ); auto. rewrite (nd_lk EQ t) by auto. apply (nd_at EQ) in H; auto. now rewrite H.
  Qed.
  Lemma at_forks {W} (t : rtree K W) : forall k, Canon t -> t_is_empty t = false -> at_node t k None -> forks t k.
  Proof.
    induction t as [p o cs IH] using rtree_ind'. intros k C N H. pose proof (wf_wfc _ _ C) as Cs. cbn [t_children] in Cs.
    inversion H as [? ? ?|? ? ? c k' ? Hc H']; subst.
    - destruct cs as [|c [|d cs]]; [discriminate| |].
      + apply wf_node in C as [_ C]. destruct (C eq_refl) as [_ C2]. now destruct (C2 eq_refl).
      + destruct (wfc_In _ _ c Cs (or_introl eq_refl)) as (Pc & Wc & Nc).
        destruct (wfc_In _ _ d Cs (or_intror (or_introl eq_refl))) as (Pd & Wd & Nd).
        destruct (canon_nonempty_has c Wc (Nc eq_refl)) as (kc & vc & Hkc). destruct (canon_nonempty_has d Wd (Nd eq_refl)) as (kd & vd & Hkd).
        apply wfc_cons in Cs as (_ & Hl & _). inversion Hl as [|? ? Hcd _]; subst. unfold head_lt in Hcd.
        destruct (t_prefix c) as [|x pc]; [contradiction|]. destruct (t_prefix d) as [|y pd]; [contradiction|].
        exists x, y, (pc ++ kc), (pd ++ kd), vc, vd. split.
        { intros ->. rewrite (proj2 (EQ y y) eq_refl) in Hcd. discriminate. }
        split; (eapply has_child; [|eassumption]); simpl; auto.
    - destruct (wfc_In _ _ c Cs Hc) as (Pc & Wc & Nc). rewrite Forall_forall in IH.
      destruct (IH c Hc k' Wc (Nc eq_refl) H') as (x & y & r & s & v & w & Hxy & H1 & H2).
      exists x, y, r, s, v, w. split; [auto|]. rewrite <- !app_assoc. split; (eapply has_child; [exact Hc|assumption]).
  Qed.
  Lemma has_split {W} p o (cs : list (rtree K W)) k v : has (Node p o cs) k v ->
    (k = p /\ o = Some v) \/ exists c q, In c cs /\ k = p ++ q /\ has c q v.
  Proof. intros H. inversion H; subst; [left; auto|right; eauto]. Qed.
  Lemma forks_at {W} (t : rtree K W) : forall k, WO t -> forks t k -> exists ow, at_node t k ow.
  Proof.
    induction t as [p o cs IH] using rtree_ind'. intros k Wt (x & y & r & s & v & w & Hxy & H1 & H2).
    pose proof (wf_wfc _ _ Wt) as Cs. cbn [t_children] in Cs.
    assert (Hp : forall q z u, k ++ z :: u = p ++ q -> (exists l, k = p ++ l /\ q = l ++ z :: u) \/ exists l, p = k ++ z :: l).
    { intros q z u Q. apply app_eq_app in Q as (l & [[-> Q]|[-> Q]]); [left; eauto|].
      destruct l as [|z' l]; cbn [app] in Q; [left; exists []; rewrite !app_nil_r; auto|]. injection Q as <- _. right. eauto. }
    assert (E1 : exists q1, k ++ x :: r = p ++ q1) by (apply has_split in H1 as [[-> _]|(c & q & _ & -> & _)]; [exists []; now rewrite app_nil_r|eauto]).
    assert (E2 : exists q2, k ++ y :: s = p ++ q2) by (apply has_split in H2 as [[-> _]|(c & q & _ & -> & _)]; [exists []; now rewrite app_nil_r|eauto]).
    destruct E1 as [q1 E1], E2 as [q2 E2].
    destruct (Hp _ _ _ E1) as [(l & -> & Q1)|(l & Q1)].
    2:{ destruct (Hp _ _ _ E2) as [(l2 & -> & Q2)|(l2 & Q2)].
        - apply (f_equal (@length K)) in Q1. rewrite !app_length in Q1. cbn in Q1. lia.
        - rewrite Q1 in Q2. apply app_inv_head in Q2. congruence. }
    destruct l as [|z l]; [rewrite app_nil_r; eexists; apply at_here|].
    assert (Sub : forall u m, has (Node p o cs) ((p ++ z :: l) ++ u) m -> exists c, In c cs /\ hd_of c = Some z /\ has c ((z :: l) ++ u) m).
    { intros u m H. rewrite <- app_assoc in H. apply has_split in H as [[Q _]|(c & q & Hc & Q & H)].
      - rewrite <- (app_nil_r p) in Q at 2. apply app_inv_head in Q. discriminate.
      - apply app_inv_head in Q. subst q. exists c. split; [auto|]. split; [|auto].
        destruct (wfc_In _ _ _ Cs Hc) as (Pc & _). destruct c as [pc oc cc]. unfold hd_of. cbn [t_prefix] in *.
        destruct pc as [|z' pc]; [congruence|]. apply has_split in H as [[Q _]|(c' & q & _ & Q & _)]; cbn in Q; injection Q as <- _; reflexivity. }
    destruct (Sub _ _ H1) as (c & Hc & Zc & Ac). destruct (Sub _ _ H2) as (d & Hd & Zd & Ad).
    assert (c = d).
    { pose proof (child_unique EQ _ _ _ _ Cs Hc Zc) as U1. pose proof (child_unique EQ _ _ _ _ Cs Hd Zd) as U2. congruence. }
    subst d. rewrite Forall_forall in IH. destruct (IH c Hc (z :: l)) as [ow H].
    - apply (wfc_In _ _ _ Cs Hc).
    - exists x, y, r, s, v, w. auto.
    - exists ow. now apply at_child with (c := c).
  Qed.
  (** in a canonical tree there is a node for each key, and one where keys part; the empty tree has one
      node, for the empty key *)
  Theorem C109_nodes {W} (b : rtree K W) k ow : Canon b ->
    (In (k, ow) (nodes b) <-> holds b k ow /\ (ow <> None \/ forks b k \/ (k = [] /\ forall k' v, ~ has b k' v))).
  Proof.
    intros C. pose proof (canon_WO _ C) as Wb. rewrite in_nodes. split.
    - intros H. split; [now apply at_node_holds|]. destruct ow as [w|]; [left; discriminate|]. right.
      destruct (t_is_empty b) eqn:Qe; [right|left; now apply at_forks].
      destruct b as [p [v|] [|c cs]]; try discriminate. apply wf_node in C as [_ C]. destruct (C eq_refl) as [C1 _].
      rewrite (C1 eq_refl eq_refl) in *. inversion H; subst; [|easy]. split; [auto|]. intros k' v Hv. inversion Hv; subst; easy.
    - intros [Hh H]. assert (X : exists o, at_node b k o).
      { destruct H as [H|[H|[-> H]]].
        - destruct ow as [w|]; [|congruence]. cbn in Hh. clear - Hh. induction Hh as [|p ov cs c k v Hc _ [o H]]; [eexists; apply at_here|].
          exists o. now apply at_child with (c := c).
        - now apply forks_at.
        - destruct (t_is_empty b) eqn:Qe.
          + destruct b as [p [v|] [|c cs]]; try discriminate. apply wf_node in C as [_ C]. destruct (C eq_refl) as [C1 _].
            rewrite (C1 eq_refl eq_refl). eexists. apply at_here.
          + destruct (canon_nonempty_has b C Qe) as (k & v & Hk). now apply H in Hk. }
      destruct X as [o X]. pose proof (at_node_holds _ _ _ Wb X) as Ho. apply (holds_lk EQ) in Ho; auto. apply (holds_lk EQ) in Hh; auto. congruence.
  Qed.
  (** and they are in key order, each key once *)
  Theorem C109_nodes_in_order {W} (b : rtree K W) : WO b -> sorted (lex kcmp) (map fst (nodes b)).
  Proof. intros H. rewrite <- nodes_tag. apply (listing_sorted EQ). now apply tag_wf. Qed.
End PropPureEff.

(** ** Witnesses *)
Definition wl : rtree nat nat := Node [] None [Node [1] (Some 5) [Node [2] None [Node [3] (Some 11) []; Node [4] (Some 20) []]]; Node [2;2] (Some 7) []].
Definition wr : rtree nat nat := Node [1] None [Node [2] None [Node [3] (Some 1) []; Node [4] (Some 2) []]; Node [3] (Some 9) []].
(** records its arguments, adds them, gives nothing for 11, panics from the (n+1)-st call on *)
Definition adds (n : nat) : clos (list (nat * nat)) (nat * nat) (option nat) := fun e x =>
  (e ++ [x], if length e <? n then Ret (if fst x =? 11 then None else Some (fst x + snd x)) else Throw).
Example w109_canon : Canon Nat.compare wl /\ Canon Nat.compare wr.
Proof. split; cbn; repeat (split || constructor || discriminate || lia || intros || congruence). Qed.
Example w109_outer : prt_outer_combine Nat.compare (fun _ _ => false) (adds 5) wl wr [] =
  Some ([(11, 1); (20, 2)], Ret (Node [] None [Node [1] (Some 5) [Node [2;4] (Some 22) []; Node [3] (Some 9) []]; Node [2;2] (Some 7) []])).
Proof. now vm_compute. Qed.
Example w109_inner : prt_inner_combine Nat.compare (fun _ _ => true) (adds 5) wl wr [] = Some ([(11, 1); (20, 2)], Ret (Node [1;2;4] (Some 22) [])) /\
  prt_inner_combine Nat.compare (fun _ _ => true) (adds 1) wl wr [] = Some ([(11, 1); (20, 2)], Throw).
Proof. now vm_compute. Qed.
(** left_combine also calls the closure for [1], where keys of wr part, but not for [2;2] *)
Definition asked : clos (list (nat * option nat)) (nat * option nat) (option nat) := fun e x =>
  (e ++ [x], Ret (match snd x with Some w => Some (fst x + w) | None => None end)).
Example w109_left : prt_left_combine Nat.compare (fun _ _ => false) asked wl wr [] =
  Some ([(5, None); (11, Some 1); (20, Some 2)], Ret (Node [] None [Node [1;2] None [Node [3] (Some 12) []; Node [4] (Some 22) []]; Node [2;2] (Some 7) []])).
Proof. now vm_compute. Qed.
Example w109_nodes : nodes wr = [([1], None); ([1;2], None); ([1;2;3], Some 1); ([1;2;4], Some 2); ([1;3], Some 9)].
Proof. reflexivity. Qed.

Print Assumptions C109_outer_combine.
Print Assumptions C109_inner_combine.
Print Assumptions C109_left_combine.
Print Assumptions C109_nodes.
Print Assumptions C109_nodes_in_order.

(** Trees reachable through the public interface, and the link between [has], [holds] and [lk]. *)
From Verif Require Export RadixCanon.

Section Holds.
  Context {K : Type} {kcmp : K -> K -> comparison} (L : OrdLaws kcmp) (E : OrdEq kcmp).
  Notation lk := (lk kcmp).

  Lemma holds_lk {V} (t : rtree K V) k o : WO kcmp t -> (holds t k o <-> lk t k = o).
  Proof.
    intros W. destruct o as [v|]; simpl.
    - symmetry. now apply (lk_has E).
    - split.
      + intros H. destruct (lk t k) as [v|] eqn:Q; auto. apply (lk_has E) in Q; auto. now apply H in Q.
      + intros Q v H. apply (lk_has E) in H; auto. congruence.
  Qed.

  (** nodes *)
  Notation nd := (nd (kcmp := kcmp)).
  Lemma nd_at {V} (t : rtree K V) : WO kcmp t -> forall k ov, nd t k = Some ov <-> at_node t k ov.
  Proof.
    induction t as [p ov cs IH] using rtree_ind'. intros W k o.
    pose proof (wf_wfc _ _ W) as C. cbn [t_children] in C. rewrite Forall_forall in IH.
    rewrite nd_strip. split.
    - destruct (strip kcmp p k) as [r|] eqn:S; [|discriminate]. apply (strip_iff E) in S as ->.
      destruct r as [|c r].
      + intros [= <-]. rewrite app_nil_r. constructor.
      + rewrite (nd_obc E false) by auto. unfold obc.
        destruct (child c cs) as [t|] eqn:Q; [|discriminate]. apply (child_Some_In E) in Q as [Ht _].
        intros H. apply IH in H; auto; [|now apply (wfc_In _ _ _ C)]. econstructor; eauto.
    - intros H. inversion H as [? ? ?|? ? ? c0 k0 ? Hin H5]; subst.
      + rewrite (strip_self E). reflexivity.
      + rewrite (strip_app E). destruct (wfc_In _ _ _ C Hin) as (Hp & Wc & _).
        apply IH in H5; auto. destruct c0 as [[|h cp] w ds]; [simpl in Hp; congruence|].
        pose proof H5 as H6. rewrite nd_strip in H6.
        destruct k0 as [|c s]; [discriminate|].
        rewrite (nd_obc E false) by auto. unfold obc.
        replace (child c cs) with (Some (Node (h :: cp) w ds)); [exact H5|].
        symmetry. apply (child_iff E); [eapply wfc_ksorted; eauto|]. split; auto.
        rewrite (strip_cons (kcmp := kcmp)) in H6. destruct (keqb kcmp h c) eqn:Q; [|discriminate].
        apply (keqb_eq E) in Q as ->. reflexivity.
  Qed.

  Context (strat : nat -> nat -> bool).
  (** every tree obtained from the public constructors by any sequence of public operations, with
      any closures and right operands of any value type *)
  Inductive reach : forall V : Type, rtree K V -> Prop :=
  | r_empty V : reach V rt_empty
  | r_leaf V v : reach V (rt_leaf v)
  | r_single V k v : reach V (rt_single k v)
  | r_from_iter V l t : rt_from_iter kcmp strat l = Ok t -> reach V t
  | r_insert V a k v t : reach V a -> rt_insert kcmp strat a k v = Ok t -> reach V t
  | r_filter_prefix V a p t : reach V a -> rt_filter_prefix kcmp a p = Ok t -> reach V t
  | r_prepend V a p : reach V a -> reach V (rt_prepend a p)
  | r_union V a b t : reach V a -> reach V b -> rt_union kcmp strat a b = Ok t -> reach V t
  | r_union_with V a b t : reach V a -> reach V b -> rt_union_with kcmp strat a b = Ok t -> reach V t
  | r_intersection V W a b t : reach V a -> reach W b -> rt_intersection kcmp strat a b = Ok t -> reach V t
  | r_intersection_with V W a b t : reach V a -> reach W b -> rt_intersection_with kcmp strat a b = Ok t -> reach V t
  | r_difference V W a b t : reach V a -> reach W b -> rt_difference kcmp strat a b = Ok t -> reach V t
  | r_difference_with V W a b t : reach V a -> reach W b -> rt_difference_with kcmp strat a b = Ok t -> reach V t
  | r_outer V f a b t : reach V a -> reach V b -> rt_outer_combine kcmp strat f a b = Ok t -> reach V t
  | r_outer_with V f a b t : reach V a -> reach V b -> rt_outer_combine_with kcmp strat f a b = Ok t -> reach V t
  | r_inner V W f a b t : reach V a -> reach W b -> rt_inner_combine kcmp strat f a b = Ok t -> reach V t
  | r_inner_with V W f a b t : reach V a -> reach W b -> rt_inner_combine_with kcmp strat f a b = Ok t -> reach V t
  | r_left V W f a b t : reach V a -> reach W b -> rt_left_combine kcmp strat f a b = Ok t -> reach V t
  | r_left_with V W f a b t : reach V a -> reach W b -> rt_left_combine_with kcmp strat f a b = Ok t -> reach V t
  | r_remove_prefix V W f a b t : reach V a -> reach W b -> rt_remove_prefix_with kcmp strat f a b = Ok t -> reach V t
  | r_retain_prefix V W f a b t : reach V a -> reach W b -> rt_retain_prefix_with kcmp strat f a b = Ok t -> reach V t.

  Lemma node_canon {V} p (v : V) : Canon kcmp (Node p (Some v) []).
  Proof. apply wf_node. split; [apply wfc_nil|]. split; discriminate. Qed.
  Lemma empty_canon {V} : Canon kcmp (@rt_empty K V).
  Proof. apply wf_node. split; [apply wfc_nil|]. split; [auto|discriminate]. Qed.

  Lemma insert_spec {V} q (t : rtree K V) k v : wf kcmp q t ->
    exists t', rt_insert kcmp strat t k v = Ok t' /\ wf kcmp q t' /\
      forall k', lk t' k' = match strip kcmp k k' with Some [] => Some v | _ => lk t k' end.
  Proof.
    intros W. assert (Ws : wf kcmp q (rt_single k v)) by (destruct q; [|apply wf_any with (q := true)]; apply node_canon).
    destruct (outer_with_spec L E strat (fun _ b : V => (b, true)) q (S (t_size t + t_size (rt_single k v))) t (rt_single k v)
                (Nat.lt_succ_diag_r _) W Ws) as (t' & Q & W' & _ & Hl).
    exists t'. split; [exact Q|]. split; [exact W'|]. intros k'. rewrite Hl. unfold rt_single, upd_outer.
    rewrite lk_node. destruct (strip kcmp k k') as [[|c r]|]; auto. now destruct (lk t k').
  Qed.
  Lemma insert_all_wf {V} q l : forall t : rtree K V, wf kcmp q t ->
    exists t', rt_insert_all kcmp strat t l = Ok t' /\ wf kcmp q t'.
  Proof.
    induction l as [|[k v] l IH]; intros t W; cbn [rt_insert_all]; [eauto|].
    destruct (insert_spec q t k v W) as (t1 & -> & W1 & _). cbn [rbind]. now apply IH.
  Qed.

  Lemma reach_canon V t : reach V t -> Canon kcmp t.
  Proof.
    induction 1 as [V|V v|V k v|V l t H|V a k v t H IH Q|V a p t H IH Q|V a p H IH
      |V a b t H IH H2 IH2 Q|V a b t H IH H2 IH2 Q|V W a b t H IH H2 IH2 Q|V W a b t H IH H2 IH2 Q|V W a b t H IH H2 IH2 Q|V W a b t H IH H2 IH2 Q
      |V f a b t H IH H2 IH2 Q|V f a b t H IH H2 IH2 Q|V W f a b t H IH H2 IH2 Q|V W f a b t H IH H2 IH2 Q|V W f a b t H IH H2 IH2 Q|V W f a b t H IH H2 IH2 Q
      |V W f a b t H IH H2 IH2 Q|V W f a b t H IH H2 IH2 Q].
    - apply empty_canon.
    - apply node_canon.
    - apply node_canon.
    - destruct (insert_all_wf true l (@rt_empty K V) empty_canon) as (t' & Q & W). unfold rt_from_iter in H. now replace t with t' by congruence.
    - destruct (insert_spec true a k v IH) as (t' & Q' & W & _). now replace t with t' by congruence.
    - destruct (filter_prefix_ok L E true a p IH) as (t' & Q' & W & _). now replace t with t' by congruence.
    - now apply prepend_wf.
    - destruct (outer_pure_spec L E strat (fun v _ => Some v) true _ a b (Nat.lt_succ_diag_r _) IH IH2) as (t' & Q' & W' & _).
      unfold rt_union, rt_outer_combine in Q. now replace t with t' by congruence.
    - destruct (outer_with_spec L E strat (fun v _ => (v, true)) true _ a b (Nat.lt_succ_diag_r _) IH IH2) as (t' & Q' & W' & _).
      unfold rt_union_with, rt_outer_combine_with in Q. now replace t with t' by congruence.
    - destruct (inner_pure_spec L E strat (fun v _ => Some v) true true _ a b (Nat.lt_succ_diag_r _) IH IH2) as (t' & Q' & W' & _).
      unfold rt_intersection, rt_inner_combine in Q. now replace t with t' by congruence.
    - destruct (inner_with_spec L E strat (fun v _ => (v, true)) true true _ a b (Nat.lt_succ_diag_r _) IH IH2) as (t' & Q' & W' & _).
      unfold rt_intersection_with, rt_inner_combine_with in Q. now replace t with t' by congruence.
    - destruct (left_pure_spec L E strat (fun v w => match w with None => Some v | Some _ => None end) true true _ a b (Nat.lt_succ_diag_r _) IH IH2) as (t' & Q' & W' & _).
      unfold rt_difference, rt_left_combine in Q. now replace t with t' by congruence.
    - destruct (left_with_spec L E strat (fun v _ => (v, false)) true true _ a b (Nat.lt_succ_diag_r _) IH IH2) as (t' & Q' & W' & _).
      unfold rt_difference_with, rt_left_combine_with in Q. now replace t with t' by congruence.
    - destruct (outer_pure_spec L E strat f true _ a b (Nat.lt_succ_diag_r _) IH IH2) as (t' & Q' & W' & _).
      unfold rt_outer_combine in Q. now replace t with t' by congruence.
    - destruct (outer_with_spec L E strat f true _ a b (Nat.lt_succ_diag_r _) IH IH2) as (t' & Q' & W' & _).
      unfold rt_outer_combine_with in Q. now replace t with t' by congruence.
    - destruct (inner_pure_spec L E strat f true true _ a b (Nat.lt_succ_diag_r _) IH IH2) as (t' & Q' & W' & _).
      unfold rt_inner_combine in Q. now replace t with t' by congruence.
    - destruct (inner_with_spec L E strat f true true _ a b (Nat.lt_succ_diag_r _) IH IH2) as (t' & Q' & W' & _).
      unfold rt_inner_combine_with in Q. now replace t with t' by congruence.
    - destruct (left_pure_spec L E strat f true true _ a b (Nat.lt_succ_diag_r _) IH IH2) as (t' & Q' & W' & _).
      unfold rt_left_combine in Q. now replace t with t' by congruence.
    - destruct (left_with_spec L E strat f true true _ a b (Nat.lt_succ_diag_r _) IH IH2) as (t' & Q' & W' & _).
      unfold rt_left_combine_with in Q. now replace t with t' by congruence.
    - destruct (remove_with_spec (V := V) L E strat f true true _ a b (Nat.lt_succ_diag_r _) IH IH2) as (t' & Q' & W' & _).
      unfold rt_remove_prefix_with in Q. now replace t with t' by congruence.
    - destruct (retain_with_spec (V := V) L E strat f true true _ a b (Nat.lt_succ_diag_r _) IH IH2) as (t' & Q' & W' & _).
      unfold rt_retain_prefix_with in Q. now replace t with t' by congruence.
  Qed.

  (** ** Validation *)
  Lemma adjacent_ss {V} (cs : list (rtree K V)) : forallb has_head cs = true ->
    (adjacent_lt kcmp cs = true <-> StronglySorted (head_lt kcmp) cs).
  Proof.
    intros Hh. induction cs as [|a cs IH]; [split; [constructor|auto]|].
    cbn [forallb] in Hh. apply andb_true_iff in Hh as [Ha Hh]. specialize (IH Hh).
    destruct cs as [|b cs]; [split; [repeat constructor|auto]|].
    cbn [adjacent_lt]. cbn [adjacent_lt] in IH. rewrite andb_true_iff.
    assert (T : forall x y z : rtree K V, head_lt kcmp x y -> head_lt kcmp y z -> head_lt kcmp x z).
    { intros x y z. unfold head_lt. destruct (t_prefix x), (t_prefix y), (t_prefix z); try tauto. eauto using (cmp_lt_trans L). }
    assert (Hab : (match head_cmp kcmp a b with Some Lt => true | _ => false end) = true <-> head_lt kcmp a b).
    { unfold head_cmp, head_lt. destruct (t_prefix a), (t_prefix b); try (split; [discriminate|tauto]).
      destruct (kcmp k k0); split; congruence. }
    rewrite Hab. split.
    - intros [H1 H2]. apply IH in H2. constructor; auto. constructor; auto.
      inversion H2 as [|? ? _ Hb]; subst. eapply Forall_impl; [|exact Hb]. intros c Hc. eapply T; eauto.
    - intros H. inversion H as [|? ? H1 H2]; subst. split; [now inversion H2|]. now apply IH.
  Qed.
  Lemma check_WO {V} (t : rtree K V) : rt_check kcmp t = true <-> WO kcmp t.
  Proof.
    induction t as [p v cs IH] using rtree_ind'. cbn [rt_check]. unfold WO. rewrite wf_node, !andb_true_iff.
    rewrite Forall_forall in IH.
    assert (H1 : forallb has_head cs = true <-> Forall (fun c : rtree K V => t_prefix c <> []) cs).
    { rewrite forallb_forall, Forall_forall. split; intros H c Hc; apply H in Hc; unfold has_head in *; destruct (t_prefix c); congruence. }
    assert (H2 : forallb (rt_check kcmp) cs = true <-> Forall (wf kcmp false) cs).
    { rewrite forallb_forall, Forall_forall. split; intros H c Hc; specialize (IH c Hc); unfold WO in IH; apply IH; auto. }
    split.
    - intros [[A B] C]. split; [|discriminate]. constructor.
      + now apply H1.
      + now apply adjacent_ss.
      + discriminate.
      + now apply H2.
    - intros [[A B _ C] _]. split; [split|].
      + now apply H1.
      + apply adjacent_ss; auto. now apply H1.
      + now apply H2.
  Qed.
End Holds.

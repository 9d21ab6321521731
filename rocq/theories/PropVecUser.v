(** C123: the VecSet operators and VecMap joins under arbitrary user code. C124: the same with comparisons that answer like an order. *)
From Verif Require Import VecUserBlame.

(** ** C123: whatever [cmp], [Clone] and the closures do *)
Section C123.
  Context {T E : Type} (cmp : clos E (T * T) comparison) (clone : clos E T T) (strat : nat -> nat -> bool).
  Local Notation cloned := (passed (one_clone clone)).
  Local Notation moved := (passed eq).
  Local Notation alone F := (fun x _ o => F x o).
  Local Notation equal F := (fun x y o => said_equal cmp x y /\ F x o).

  (** The four operators of two borrowed sets. Every element is dealt with once, from the front; alone, it is dropped or
      replaced by one clone of it; two are dealt with together only if [cmp] called them equal. No assumption on the lists: they
      need not be sorted. *)
  Theorem C123_set_building a b e :
    merges (woven (alone cloned) (alone cloned) (equal cloned)) a b (uset_union cmp clone strat a b e) /\
    merges (woven (alone dropped) (alone dropped) (equal cloned)) a b (uset_intersection cmp clone strat a b e) /\
    merges (woven (alone cloned) (alone cloned) (equal dropped)) a b (uset_symmetric_difference cmp clone strat a b e) /\
    merges (woven (alone cloned) (alone dropped) (equal dropped)) a b (uset_difference cmp clone strat a b e).
  Proof using.
    split; [|split; [|split]].
    - exact (wrun_merges cmp element element _ vs_out _ _ _ (vs_obeys clone true true true) (fun _ _ _ => conj eq_refl (conj eq_refl eq_refl)) strat (vs_new a b) e eq_refl).
    - exact (wrun_merges cmp element element _ vs_out _ _ _ (vs_obeys clone false false true) (fun _ _ _ => conj eq_refl (conj eq_refl eq_refl)) strat (vs_new a b) e eq_refl).
    - exact (wrun_merges cmp element element _ vs_out _ _ _ (vs_obeys clone true true false) (fun _ _ _ => conj eq_refl (conj eq_refl eq_refl)) strat (vs_new a b) e eq_refl).
    - exact (wrun_merges cmp element element _ vs_out _ _ _ (vs_obeys clone true false false) (fun _ _ _ => conj eq_refl (conj eq_refl eq_refl)) strat (vs_new a b) e eq_refl).
  Qed.

  (** The assigning operators with a borrowed right side: the elements of [self] that stay are moved, not cloned. After a panic
      the first list of [Unwound] is what [self] holds. *)
  Theorem C123_set_assigning a b e :
    merges (woven (alone moved) (alone cloned) (equal moved)) a b (uset_or_assign_ref cmp clone strat a b e) /\
    merges (woven (alone dropped) (alone dropped) (equal moved)) a b (uset_and_assign_ref cmp clone strat a b e) /\
    merges (woven (alone moved) (alone cloned) (equal dropped)) a b (uset_xor_assign_ref cmp clone strat a b e) /\
    merges (woven (alone moved) (alone dropped) (equal dropped)) a b (uset_sub_assign_ref cmp clone strat a b e).
  Proof using.
    split; [|split; [|split]].
    - exact (wrun_merges cmp element element _ ipr_out _ _ _ (ipr_obeys clone true true true) (fun _ _ _ => conj eq_refl (conj eq_refl eq_refl)) strat (ipr_new a b) e eq_refl).
    - exact (wrun_merges cmp element element _ ipr_out _ _ _ (ipr_obeys clone false false true) (fun _ _ _ => conj eq_refl (conj eq_refl eq_refl)) strat (ipr_new a b) e eq_refl).
    - exact (wrun_merges cmp element element _ ipr_out _ _ _ (ipr_obeys clone true true false) (fun _ _ _ => conj eq_refl (conj eq_refl eq_refl)) strat (ipr_new a b) e eq_refl).
    - exact (wrun_merges cmp element element _ ipr_out _ _ _ (ipr_obeys clone true false false) (fun _ _ _ => conj eq_refl (conj eq_refl eq_refl)) strat (ipr_new a b) e eq_refl).
  Qed.
  (** They panic only when user code does: only when [cmp] does where nothing is cloned. *)
  Theorem C123_set_panics a b e :
    let cmp_or_clone e' := threw cmp e' \/ threw clone e' in
    blames cmp_or_clone (uset_union cmp clone strat a b e) /\ blames cmp_or_clone (uset_intersection cmp clone strat a b e) /\
    blames cmp_or_clone (uset_symmetric_difference cmp clone strat a b e) /\ blames cmp_or_clone (uset_difference cmp clone strat a b e) /\
    blames cmp_or_clone (uset_or_assign_ref cmp clone strat a b e) /\ blames (threw cmp) (uset_and_assign_ref cmp clone strat a b e) /\
    blames cmp_or_clone (uset_xor_assign_ref cmp clone strat a b e) /\ blames (threw cmp) (uset_sub_assign_ref cmp clone strat a b e).
  Proof using.
    intros cc.
    assert (G1 : forall ta tb tc, blames cc (uvs_merge cmp strat (set_op (cvs_msm clone) ta tb tc) a b e)).
    { intros ta tb tc. apply (merge_blames cmp element element _ vs_out _ _ _ (vs_obeys clone ta tb tc)
        (fun _ _ _ => conj eq_refl (conj eq_refl eq_refl)) (threw clone) (vs_guilt clone ta tb tc) strat _ vs_out). }
    assert (G2 : forall ta tb tc, blames (fun e => threw cmp e \/ tb = true /\ threw clone e) (uipr_merge cmp strat (set_op (cipr_msm clone) ta tb tc) a b e)).
    { intros ta tb tc. apply (merge_blames cmp element element _ ipr_out _ _ _ (ipr_obeys clone ta tb tc)
        (fun _ _ _ => conj eq_refl (conj eq_refl eq_refl)) (fun e => tb = true /\ threw clone e) (ipr_guilt clone ta tb tc) strat _ ipr_out). }
    assert (G3 : forall ta tc, blames cc (uipr_merge cmp strat (set_op (cipr_msm clone) ta true tc) a b e)).
    { intros ta tc. specialize (G2 ta true tc). destruct (uipr_merge _ _ _ _ _ _) as [|[r e']|]; cbn [blames] in *; auto. unfold cc. tauto. }
    assert (G4 : forall ta tc, blames (threw cmp) (uipr_merge cmp strat (set_op (cipr_msm clone) ta false tc) a b e)).
    { intros ta tc. specialize (G2 ta false tc). destruct (uipr_merge _ _ _ _ _ _) as [|[r e']|]; cbn [blames] in *; auto.
      destruct G2 as [H|[H _]]; [exact H|discriminate]. }
    split; [apply (G1 true true true)|]. split; [apply (G1 false false true)|]. split; [apply (G1 true true false)|]. split; [apply (G1 true false false)|].
    split; [apply (G3 true true)|]. split; [apply (G4 false true)|]. split; [apply (G3 true false)|apply (G4 true false)].
  Qed.
End C123.

Section C123Maps.
  Context {K E : Type} (cmp : clos E (K * K) comparison) (clone : clos E K K) (strat : nat -> nat -> bool).
  Local Notation cloned := (one_clone clone).
  Local Notation alone F := (fun x _ o => F x o).
  (** The joins of two borrowed maps: each entry is dealt with once, two together only if [cmp] called their keys equal. The
      closure is called on the entry, and what it returns is put under one clone of the key (of the left key for two). *)
  Theorem C123_map_joins {V W R : Type} (a : list (K * V)) (b : list (K * W)) e :
    (forall f : clos E (ojarg K V W) (option R),
      merges (woven
        (fun x _ => put_under cloned f (OJLeft (fst x) (snd x)) (fst x)) (fun y _ => put_under cloned f (OJRight (fst y) (snd y)) (fst y))
        (fun x y o => said_equal cmp (fst x) (fst y) /\ put_under cloned f (OJBoth (fst x) (snd x) (snd y)) (fst x) o))
        a b (umap_outer_join cmp clone strat f a b e)) /\
    (forall f : clos E (K * V * option W) (option R),
      merges (woven
        (fun x _ => put_under cloned f (fst x, snd x, None) (fst x)) (alone dropped)
        (fun x y o => said_equal cmp (fst x) (fst y) /\ put_under cloned f (fst x, snd x, Some (snd y)) (fst x) o))
        a b (umap_left_join cmp clone strat f a b e)) /\
    (forall f : clos E (K * option V * W) (option R),
      merges (woven
        (alone dropped) (fun y _ => put_under cloned f (fst y, None, snd y) (fst y))
        (fun x y o => said_equal cmp (fst x) (fst y) /\ put_under cloned f (fst x, Some (snd x), snd y) (fst x) o))
        a b (umap_right_join cmp clone strat f a b e)) /\
    (forall f : clos E (K * V * W) (option R),
      merges (woven (alone dropped) (alone dropped)
        (fun x y o => said_equal cmp (fst x) (fst y) /\ put_under cloned f (fst x, snd x, snd y) (fst x) o))
        a b (umap_inner_join cmp clone strat f a b e)).
  Proof using.
    split; [|split; [|split]]; intros f.
    - exact (wrun_merges cmp fst fst _ vj_out _ _ _ (vs_outer_obeys clone f) (fun _ _ _ => conj eq_refl (conj eq_refl eq_refl)) strat (vs_new a b) e eq_refl).
    - exact (wrun_merges cmp fst fst _ vj_out _ _ _ (vs_left_obeys clone f) (fun _ _ _ => conj eq_refl (conj eq_refl eq_refl)) strat (vs_new a b) e eq_refl).
    - exact (wrun_merges cmp fst fst _ vj_out _ _ _ (vs_right_obeys clone f) (fun _ _ _ => conj eq_refl (conj eq_refl eq_refl)) strat (vs_new a b) e eq_refl).
    - exact (wrun_merges cmp fst fst _ vj_out _ _ _ (vs_inner_obeys clone f) (fun _ _ _ => conj eq_refl (conj eq_refl eq_refl)) strat (vs_new a b) e eq_refl).
  Qed.
  (** In place: keys of [self] are moved, keys of the other map cloned. *)
  Theorem C123_map_joins_with {V W : Type} (a : list (K * V)) (b : list (K * W)) e :
    (forall f : clos E (ojarg K V W) (option V),
      merges (woven
        (fun x _ => put_under eq f (OJLeft (fst x) (snd x)) (fst x)) (fun y _ => put_under cloned f (OJRight (fst y) (snd y)) (fst y))
        (fun x y o => said_equal cmp (fst x) (fst y) /\ put_under eq f (OJBoth (fst x) (snd x) (snd y)) (fst x) o))
        a b (umap_outer_join_with cmp clone strat f a b e)) /\
    (forall f : clos E (K * V * option W) (option V),
      merges (woven
        (fun x _ => put_under eq f (fst x, snd x, None) (fst x)) (alone dropped)
        (fun x y o => said_equal cmp (fst x) (fst y) /\ put_under eq f (fst x, snd x, Some (snd y)) (fst x) o))
        a b (umap_left_join_with cmp strat f a b e)) /\
    (forall f : clos E (K * option V * W) (option V),
      merges (woven
        (alone dropped) (fun y _ => put_under cloned f (fst y, None, snd y) (fst y))
        (fun x y o => said_equal cmp (fst x) (fst y) /\ put_under eq f (fst x, Some (snd x), snd y) (fst x) o))
        a b (umap_right_join_with cmp clone strat f a b e)) /\
    (forall f : clos E (K * V * W) (option V),
      merges (woven (alone dropped) (alone dropped)
        (fun x y o => said_equal cmp (fst x) (fst y) /\ put_under eq f (fst x, snd x, snd y) (fst x) o))
        a b (umap_inner_join_with cmp strat f a b e)).
  Proof using.
    split; [|split; [|split]]; intros f.
    - exact (wrun_merges cmp fst fst _ ij_out _ _ _ (ipr_outer_obeys clone f) (fun _ _ _ => conj eq_refl (conj eq_refl eq_refl)) strat (ipr_new a b) e eq_refl).
    - exact (wrun_merges cmp fst fst _ ij_out _ _ _ (ipr_left_obeys f) (fun _ _ _ => conj eq_refl (conj eq_refl eq_refl)) strat (ipr_new a b) e eq_refl).
    - exact (wrun_merges cmp fst fst _ ij_out _ _ _ (ipr_right_obeys clone f) (fun _ _ _ => conj eq_refl (conj eq_refl eq_refl)) strat (ipr_new a b) e eq_refl).
    - exact (wrun_merges cmp fst fst _ ij_out _ _ _ (ipr_inner_obeys f) (fun _ _ _ => conj eq_refl (conj eq_refl eq_refl)) strat (ipr_new a b) e eq_refl).
  Qed.
  (** combine_with: lone entries of both maps are moved, and the closure is called for two with keys called equal. *)
  Theorem C123_map_combine_with {V : Type} (f : clos E (V * V) V) (a b : list (K * V)) e :
    merges (woven (alone (passed eq)) (alone (passed eq))
      (fun x y o => said_equal cmp (fst x) (fst y) /\ exists e e' v, f e (snd x, snd y) = (e', Ret v) /\ o = Some (fst x, v)))
      a b (umap_combine_with cmp strat f a b e).
  Proof using.
    exact (wrun_merges cmp fst fst _ pj_out _ _ _ (ip_combine_obeys f) (fun _ _ _ => conj eq_refl (conj eq_refl eq_refl)) strat (ip_new a b) e eq_refl).
  Qed.
  Theorem C123_map_panics {V W R : Type} (a : list (K * V)) (b : list (K * W)) e :
    let guilty {X Y} (f : clos E X Y) e' := threw cmp e' \/ threw f e' \/ threw clone e' in
    let guilty' {X Y} (f : clos E X Y) e' := threw cmp e' \/ threw f e' in
    (forall f : clos E (ojarg K V W) (option R), blames (guilty f) (umap_outer_join cmp clone strat f a b e)) /\
    (forall f : clos E (K * V * option W) (option R), blames (guilty f) (umap_left_join cmp clone strat f a b e)) /\
    (forall f : clos E (K * option V * W) (option R), blames (guilty f) (umap_right_join cmp clone strat f a b e)) /\
    (forall f : clos E (K * V * W) (option R), blames (guilty f) (umap_inner_join cmp clone strat f a b e)) /\
    (forall f : clos E (ojarg K V W) (option V), blames (guilty f) (umap_outer_join_with cmp clone strat f a b e)) /\
    (forall f : clos E (K * V * option W) (option V), blames (guilty' f) (umap_left_join_with cmp strat f a b e)) /\
    (forall f : clos E (K * option V * W) (option V), blames (guilty f) (umap_right_join_with cmp clone strat f a b e)) /\
    (forall f : clos E (K * V * W) (option V), blames (guilty' f) (umap_inner_join_with cmp strat f a b e)) /\
    (forall (f : clos E (V * V) V) b, blames (guilty' f) (umap_combine_with cmp strat f a b e)).
  Proof using.
    intros g g'.
    split; [|split; [|split; [|split; [|split; [|split; [|split; [|split]]]]]]]; intros f.
    - exact (merge_blames cmp fst fst _ vj_out _ _ _ (vs_outer_obeys clone f) (fun _ _ _ => conj eq_refl (conj eq_refl eq_refl)) _ (vs_outer_guilt clone f) strat (vs_new a b, e) vj_out).
    - exact (merge_blames cmp fst fst _ vj_out _ _ _ (vs_left_obeys clone f) (fun _ _ _ => conj eq_refl (conj eq_refl eq_refl)) _ (vs_left_guilt clone f) strat (vs_new a b, e) vj_out).
    - exact (merge_blames cmp fst fst _ vj_out _ _ _ (vs_right_obeys clone f) (fun _ _ _ => conj eq_refl (conj eq_refl eq_refl)) _ (vs_right_guilt clone f) strat (vs_new a b, e) vj_out).
    - exact (merge_blames cmp fst fst _ vj_out _ _ _ (vs_inner_obeys clone f) (fun _ _ _ => conj eq_refl (conj eq_refl eq_refl)) _ (vs_inner_guilt clone f) strat (vs_new a b, e) vj_out).
    - exact (merge_blames cmp fst fst _ ij_out _ _ _ (ipr_outer_obeys clone f) (fun _ _ _ => conj eq_refl (conj eq_refl eq_refl)) _ (ipr_outer_guilt clone f) strat (ipr_new a b, e) ij_out).
    - exact (merge_blames cmp fst fst _ ij_out _ _ _ (ipr_left_obeys f) (fun _ _ _ => conj eq_refl (conj eq_refl eq_refl)) _ (ipr_left_guilt f) strat (ipr_new a b, e) ij_out).
    - exact (merge_blames cmp fst fst _ ij_out _ _ _ (ipr_right_obeys clone f) (fun _ _ _ => conj eq_refl (conj eq_refl eq_refl)) _ (ipr_right_guilt clone f) strat (ipr_new a b, e) ij_out).
    - exact (merge_blames cmp fst fst _ ij_out _ _ _ (ipr_inner_obeys f) (fun _ _ _ => conj eq_refl (conj eq_refl eq_refl)) _ (ipr_inner_guilt f) strat (ipr_new a b, e) ij_out).
    - intros b2. exact (merge_blames cmp fst fst _ pj_out _ _ _ (ip_combine_obeys f) (fun _ _ _ => conj eq_refl (conj eq_refl eq_refl)) _ (ip_combine_guilt f) strat (ip_new a b2, e) pj_out).
  Qed.
End C123Maps.

(** ** C124: comparisons that answer like an order *)
Section C124.
  Context {T E : Type} {kcmp : T -> T -> comparison} (L : OrdLaws kcmp).
  Context (cmp : clos E (T * T) comparison) (AL : answers_like kcmp cmp) (clone : clos E T T) (CE : clones_equal kcmp clone).
  Context (strat : nat -> nat -> bool).
  Local Notation cloned := (passed (one_clone clone)).
  Local Notation moved := (passed eq).
  Local Notation both F := (fun x _ => F x).
  Local Notation ascending := (ksorted (cmp := kcmp) element).
  Local Notation merges_keys := (merges_keys (kcmp := kcmp) element element element).
  Lemma fate_equal take (via : T -> T -> Prop) : (forall x y, via x y -> kcmp y x = Eq) -> forall x z, fate take via x (Some z) -> kcmp z x = Eq.
  Proof using. intros H x z. destruct take; [|discriminate]. intros (y & H1 & [= ->]). auto. Qed.
  Lemma eq_equal (x y : T) : x = y -> kcmp y x = Eq.
  Proof using L. intros ->. apply (cmp_refl L). Qed.
  Theorem C124_set_building a b e : ascending a -> ascending b ->
    merges_keys (point cloned cloned (both cloned)) a b (uset_union cmp clone strat a b e) /\
    merges_keys (point dropped dropped (both cloned)) a b (uset_intersection cmp clone strat a b e) /\
    merges_keys (point cloned cloned (both dropped)) a b (uset_symmetric_difference cmp clone strat a b e) /\
    merges_keys (point cloned dropped (both dropped)) a b (uset_difference cmp clone strat a b e).
  Proof using L AL CE.
    intros Sa Sb.
    assert (G : forall ta tb tc, merges_keys (point (fate ta (one_clone clone)) (fate tb (one_clone clone)) (both (fate tc (one_clone clone)))) a b
      (uvs_merge cmp strat (set_op (cvs_msm clone) ta tb tc) a b e)).
    { intros ta tb tc. apply (law_points L cmp AL element element element _ vs_out _ _ _ (vs_obeys clone ta tb tc)); auto; cbn beta; try (intros ? ?; apply fate_equal; exact CE); intros x _ z; apply fate_equal; exact CE. }
    split; [apply (G true true true)|]. split; [apply (G false false true)|]. split; [apply (G true true false)|apply (G true false false)].
  Qed.
  Theorem C124_set_assigning a b e : ascending a -> ascending b ->
    merges_keys (point moved cloned (both moved)) a b (uset_or_assign_ref cmp clone strat a b e) /\
    merges_keys (point dropped dropped (both moved)) a b (uset_and_assign_ref cmp clone strat a b e) /\
    merges_keys (point moved cloned (both dropped)) a b (uset_xor_assign_ref cmp clone strat a b e) /\
    merges_keys (point moved dropped (both dropped)) a b (uset_sub_assign_ref cmp clone strat a b e).
  Proof using L AL CE.
    intros Sa Sb.
    assert (G : forall ta tb tc, merges_keys (point (fate ta eq) (fate tb (one_clone clone)) (both (fate tc eq))) a b
      (uipr_merge cmp strat (set_op (cipr_msm clone) ta tb tc) a b e)).
    { intros ta tb tc. apply (law_points L cmp AL element element element _ ipr_out _ _ _ (ipr_obeys clone ta tb tc)); auto; cbn beta;
        try (intros ? ?; apply fate_equal; first [exact CE|exact eq_equal]); intros x _ z; apply fate_equal; exact eq_equal. }
    split; [apply (G true true true)|]. split; [apply (G false false true)|]. split; [apply (G true true false)|apply (G true false false)].
  Qed.
End C124.

Section C124Maps.
  Context {K E : Type} {kcmp : K -> K -> comparison} (L : OrdLaws kcmp).
  Context (cmp : clos E (K * K) comparison) (AL : answers_like kcmp cmp) (clone : clos E K K) (CE : clones_equal kcmp clone).
  Context (strat : nat -> nat -> bool).
  Local Notation cloned := (one_clone clone).
  Local Notation merges_keys := (merges_keys (kcmp := kcmp) fst fst fst).
  Lemma put_equal {X Y} (via : K -> K -> Prop) (f : clos E X (option Y)) x k z : (forall x y, via x y -> kcmp y x = Eq) ->
    put_under via f x k (Some z) -> kcmp (fst z) k = Eq.
  Proof using. intros H (e & e' & [y|] & _ & G); [|discriminate]. destruct G as (k' & G & [= ->]). now apply H. Qed.
  Lemma via_eq (x y : K) : x = y -> kcmp y x = Eq.
  Proof using L. intros ->. apply (cmp_refl L). Qed.
  Ltac points H := apply (law_points L cmp AL fst fst fst _ _ _ _ _ H);
    auto; cbn beta; try (intros ? ?; apply put_equal; first [exact CE|exact via_eq]);
    try (intros ? ? ?; apply put_equal; first [exact CE|exact via_eq]); discriminate.
  Theorem C124_map_joins {V W R : Type} (a : list (K * V)) (b : list (K * W)) e :
    ksorted (cmp := kcmp) fst a -> ksorted (cmp := kcmp) fst b ->
    (forall f : clos E (ojarg K V W) (option R),
      merges_keys (point
        (fun x => put_under cloned f (OJLeft (fst x) (snd x)) (fst x)) (fun y => put_under cloned f (OJRight (fst y) (snd y)) (fst y))
        (fun x y => put_under cloned f (OJBoth (fst x) (snd x) (snd y)) (fst x))) a b (umap_outer_join cmp clone strat f a b e)) /\
    (forall f : clos E (K * V * option W) (option R),
      merges_keys (point
        (fun x => put_under cloned f (fst x, snd x, None) (fst x)) dropped
        (fun x y => put_under cloned f (fst x, snd x, Some (snd y)) (fst x))) a b (umap_left_join cmp clone strat f a b e)) /\
    (forall f : clos E (K * option V * W) (option R),
      merges_keys (point
        dropped (fun y => put_under cloned f (fst y, None, snd y) (fst y))
        (fun x y => put_under cloned f (fst x, Some (snd x), snd y) (fst x))) a b (umap_right_join cmp clone strat f a b e)) /\
    (forall f : clos E (K * V * W) (option R),
      merges_keys (point dropped dropped (fun x y => put_under cloned f (fst x, snd x, snd y) (fst x)))
        a b (umap_inner_join cmp clone strat f a b e)).
  Proof using L AL CE.
    intros Sa Sb. split; [|split; [|split]]; intros f.
    - points (vs_outer_obeys (V := V) (W := W) clone f).
    - points (vs_left_obeys (V := V) (W := W) clone f).
    - points (vs_right_obeys (V := V) (W := W) clone f).
    - points (vs_inner_obeys (V := V) (W := W) clone f).
  Qed.
  Theorem C124_map_joins_with {V W : Type} (a : list (K * V)) (b : list (K * W)) e :
    ksorted (cmp := kcmp) fst a -> ksorted (cmp := kcmp) fst b ->
    (forall f : clos E (ojarg K V W) (option V),
      merges_keys (point
        (fun x => put_under eq f (OJLeft (fst x) (snd x)) (fst x)) (fun y => put_under cloned f (OJRight (fst y) (snd y)) (fst y))
        (fun x y => put_under eq f (OJBoth (fst x) (snd x) (snd y)) (fst x))) a b (umap_outer_join_with cmp clone strat f a b e)) /\
    (forall f : clos E (K * V * option W) (option V),
      merges_keys (point
        (fun x => put_under eq f (fst x, snd x, None) (fst x)) dropped
        (fun x y => put_under eq f (fst x, snd x, Some (snd y)) (fst x))) a b (umap_left_join_with cmp strat f a b e)) /\
    (forall f : clos E (K * option V * W) (option V),
      merges_keys (point
        dropped (fun y => put_under cloned f (fst y, None, snd y) (fst y))
        (fun x y => put_under eq f (fst x, Some (snd x), snd y) (fst x))) a b (umap_right_join_with cmp clone strat f a b e)) /\
    (forall f : clos E (K * V * W) (option V),
      merges_keys (point dropped dropped (fun x y => put_under eq f (fst x, snd x, snd y) (fst x)))
        a b (umap_inner_join_with cmp strat f a b e)).
  Proof using L AL CE.
    intros Sa Sb. split; [|split; [|split]]; intros f.
    - points (ipr_outer_obeys (V := V) (W := W) clone f).
    - points (ipr_left_obeys (V := V) (W := W) f).
    - points (ipr_right_obeys (V := V) (W := W) clone f).
    - points (ipr_inner_obeys (V := V) (W := W) f).
  Qed.
  Theorem C124_map_combine_with {V : Type} (f : clos E (V * V) V) (a b : list (K * V)) e :
    ksorted (cmp := kcmp) fst a -> ksorted (cmp := kcmp) fst b ->
    merges_keys (point (passed eq) (passed eq) (fun x y o => exists e e' v, f e (snd x, snd y) = (e', Ret v) /\ o = Some (fst x, v)))
      a b (umap_combine_with cmp strat f a b e).
  Proof using L AL.
    intros Sa Sb. apply (law_points L cmp AL fst fst fst _ _ _ _ _ (ip_combine_obeys f)); auto; cbn beta.
    - intros x z (y & <- & [= <-]). apply (cmp_refl L).
    - intros x z (y & <- & [= <-]). apply (cmp_refl L).
    - intros x y z (e1 & e2 & v & _ & [= ->]). apply (cmp_refl L).
  Qed.
End C124Maps.

(** ** Witnesses *)
(** user code with a budget of calls, after which everything panics *)
Definition weary {X Y} (g : X -> Y) : clos nat X Y := fun e x => match e with 0 => (0, Throw) | S e' => (e', Ret (g x)) end.
Definition weary_cmp : clos nat (nat * nat) comparison := weary (fun p => Nat.compare (fst p) (snd p)).
Example weary_lawful : answers_like Nat.compare weary_cmp /\ clones_equal Nat.compare (weary (fun v => v)).
Proof.
  split.
  - intros [|e] x y e' q [= <- <-]. reflexivity.
  - intros x y ([|e] & e' & [=]). subst. apply Nat.compare_refl.
Qed.
Example weary_sorted : ksorted (cmp := Nat.compare) element [1; 3; 5; 7] /\ ksorted (cmp := Nat.compare) element [2; 3; 9].
Proof. split; repeat constructor. Qed.
(** with calls enough it returns; with too few it panics with the front done *)
Example weary_runs :
  uset_or_assign_ref weary_cmp (weary (fun v => v)) (fun _ _ => true) [1; 3; 5; 7] [2; 3; 9] 20 = Done ([1; 2; 3; 5; 7; 9], 13) /\
  uset_or_assign_ref weary_cmp (weary (fun v => v)) (fun _ _ => true) [1; 3; 5; 7] [2; 3; 9] 3 = Unwound ([1; 2], 0) /\
  umap_outer_join_with weary_cmp (weary (fun v => v)) (fun _ _ => true)
    (weary (fun x => match x with OJLeft _ v => Some v | OJRight _ w => Some (100 + w) | OJBoth _ v w => Some (v + w) end))
    [(1, 10); (3, 30)] [(2, 20); (3, 33)] 20 = Done ([(1, 10); (2, 120); (3, 63)], 13).
Proof. vm_compute. repeat split. Qed.
(** a comparison without laws (always Equal) on lists that are not sorted *)
Example lawless_runs :
  uset_xor_assign_ref (fun (e : unit) _ => (e, Ret Eq)) (fun e v => (e, Ret (v + 1))) (fun _ _ => true) [5; 1] [7; 2; 9] tt = Done ([10], tt) /\
  uset_or_assign_ref (fun (e : unit) _ => (e, Ret Gt)) (fun e v => (e, Ret (v + 1))) (fun _ _ => true) [5; 1] [7; 2; 9] tt = Done ([8; 3; 10; 5; 1], tt).
Proof. vm_compute. repeat split. Qed.
Print Assumptions C123_set_building.
Print Assumptions C123_set_assigning.
Print Assumptions C123_map_joins.
Print Assumptions C123_map_joins_with.
Print Assumptions C123_map_combine_with.
Print Assumptions C123_set_panics.
Print Assumptions C123_map_panics.
Print Assumptions C124_set_building.
Print Assumptions C124_set_assigning.
Print Assumptions C124_map_joins.
Print Assumptions C124_map_joins_with.
Print Assumptions C124_map_combine_with.

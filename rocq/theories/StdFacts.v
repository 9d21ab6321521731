(** Facts about the standard-library model. *)
From Verif Require Export StdModel.

Lemma div2_lt n : 0 < n -> n / 2 < n.
Proof. intros. apply Nat.div_lt; lia. Qed.

(** ** Binary search *)
Section BS.
  Context {T : Type} (f : T -> option comparison).

  (** The three-way partition binary search needs. *)
  Definition below (l : list T) := Forall (fun x => f x = Some Lt) l.
  Definition above (l : list T) := Forall (fun x => f x = Some Gt) l.

  Lemma nth_error_split_lt (l : list T) i :
    i < length l -> exists x, nth_error l i = Some x.
  Proof.
    intros H. destruct (nth_error l i) as [x|] eqn:E; [eauto|].
    apply nth_error_None in E. lia.
  Qed.

  Lemma bs_loop_err l1 l2 fuel left right cnt :
    below l1 -> above l2 ->
    left <= length l1 -> length l1 <= right -> right <= length (l1 ++ l2) ->
    right - left < fuel ->
    fst (bs_loop f (l1 ++ l2) fuel left right cnt) = BsErr (length l1).
  Proof.
    intros H1 H2. revert left right cnt.
    induction fuel as [|fuel IH]; intros left right cnt Hl Hr Hlen Hf; [lia|].
    cbn [bs_loop]. destruct (Nat.ltb_spec left right) as [Hlt|Hge].
    - pose proof (div2_lt (right - left)) as Hm.
      set (mid := left + (right - left) / 2) in *.
      assert (Hmid : mid < right) by (unfold mid; lia).
      assert (Hmid' : left <= mid) by (unfold mid; lia).
      destruct (nth_error_split_lt (l1 ++ l2) mid) as [x Hx]; [lia|].
      rewrite Hx. destruct (Nat.lt_ge_cases mid (length l1)) as [Hc|Hc].
      + rewrite nth_error_app1 in Hx by assumption.
        assert (Hfx : f x = Some Lt).
        { unfold below in H1. rewrite Forall_forall in H1. apply H1. eapply nth_error_In; eauto. }
        rewrite Hfx. apply IH; lia.
      + rewrite nth_error_app2 in Hx by assumption.
        assert (Hfx : f x = Some Gt).
        { unfold above in H2. rewrite Forall_forall in H2. apply H2. eapply nth_error_In; eauto. }
        rewrite Hfx. apply IH; lia.
    - simpl. f_equal. lia.
  Qed.

  Lemma bs_loop_ok l1 y l2 fuel left right cnt :
    below l1 -> above l2 -> f y = Some Eq ->
    left <= length l1 -> length l1 < right -> right <= length (l1 ++ y :: l2) ->
    right - left < fuel ->
    fst (bs_loop f (l1 ++ y :: l2) fuel left right cnt) = BsOk (length l1).
  Proof.
    intros H1 H2 Hy. revert left right cnt.
    induction fuel as [|fuel IH]; intros left right cnt Hl Hr Hlen Hf; [lia|].
    cbn [bs_loop]. destruct (Nat.ltb_spec left right) as [Hlt|Hge]; [|lia].
    pose proof (div2_lt (right - left)) as Hm.
    set (mid := left + (right - left) / 2) in *.
    assert (Hmid : mid < right) by (unfold mid; lia).
    assert (Hmid' : left <= mid) by (unfold mid; lia).
    destruct (nth_error_split_lt (l1 ++ y :: l2) mid) as [x Hx]; [lia|].
    rewrite Hx. destruct (Nat.lt_trichotomy mid (length l1)) as [Hc|[Hc|Hc]].
    - rewrite nth_error_app1 in Hx by assumption.
      assert (Hfx : f x = Some Lt).
      { unfold below in H1. rewrite Forall_forall in H1. apply H1. eapply nth_error_In; eauto. }
      rewrite Hfx. apply IH; lia.
    - rewrite nth_error_app2 in Hx by lia. rewrite Hc, Nat.sub_diag in Hx. simpl in Hx.
      injection Hx as <-. rewrite Hy. simpl. congruence.
    - rewrite nth_error_app2 in Hx by lia.
      assert (Hfx : f x = Some Gt).
      { unfold above in H2. rewrite Forall_forall in H2. apply H2.
        destruct (mid - length l1) as [|d] eqn:E; [lia|]. simpl in Hx.
        eapply nth_error_In; eauto. }
      rewrite Hfx. apply IH; lia.
  Qed.

  Lemma bsearch_err l1 l2 :
    below l1 -> above l2 -> bsearch f (l1 ++ l2) = BsErr (length l1).
  Proof.
    intros H1 H2. unfold bsearch, bs_count. apply bs_loop_err; auto; rewrite ?app_length; lia.
  Qed.

  Lemma bsearch_ok l1 y l2 :
    below l1 -> above l2 -> f y = Some Eq -> bsearch f (l1 ++ y :: l2) = BsOk (length l1).
  Proof.
    intros H1 H2 Hy. unfold bsearch, bs_count.
    apply bs_loop_ok; auto; rewrite ?app_length; simpl; lia.
  Qed.

  (** number of comparator calls *)
  Lemma bs_loop_cnt l fuel left right cnt :
    snd (bs_loop f l fuel left right cnt) <=
    cnt + (if left <? right then Nat.log2 (right - left) + 1 else 0).
  Proof.
    revert left right cnt.
    induction fuel as [|fuel IH]; intros left right cnt; [simpl; lia|].
    cbn [bs_loop]. destruct (Nat.ltb_spec left right) as [Hlt|Hge]; [|simpl; lia].
    set (n := right - left) in *.
    pose proof (div2_lt n) as Hm.
    assert (Hn : 0 < n) by (unfold n; lia).
    assert (Hdm : n = 2 * (n / 2) + n mod 2) by (apply Nat.div_mod; lia).
    assert (Hmod : n mod 2 < 2) by (apply Nat.mod_upper_bound; lia).
    assert (Hlog : forall m, 0 < m -> m <= n / 2 -> Nat.log2 m + 1 <= Nat.log2 n).
    { intros m Hm0 Hm1. rewrite Nat.add_1_r, <- Nat.log2_double by assumption.
      apply Nat.log2_le_mono. lia. }
    destruct (nth_error l (left + n / 2)) as [x|]; [|cbn [snd]; lia].
    destruct (f x) as [[| |]|]; cbn [snd]; try lia.
    - specialize (IH (left + n / 2 + 1) right (S cnt)).
      destruct (Nat.ltb_spec (left + n / 2 + 1) right) as [H1|H1]; [|lia].
      assert (Hq : right - (left + n / 2 + 1) <= n / 2).
      { assert (right = left + n) by (unfold n; lia). lia. }
      specialize (Hlog (right - (left + n / 2 + 1)) ltac:(lia) Hq). lia.
    - specialize (IH left (left + n / 2) (S cnt)).
      destruct (Nat.ltb_spec left (left + n / 2)) as [H1|H1]; [|lia].
      replace (left + n / 2 - left) with (n / 2) in IH by lia.
      specialize (Hlog (n / 2) ltac:(lia) (le_n _)). lia.
  Qed.

  Lemma bs_count_bound l :
    snd (bs_count f l) <= match length l with 0 => 0 | n => Nat.log2 n + 1 end.
  Proof.
    unfold bs_count. pose proof (bs_loop_cnt l (S (length l)) 0 (length l) 0) as H.
    destruct (length l) as [|n]; [simpl in *; lia|].
    cbn [Nat.ltb Nat.leb] in H. rewrite Nat.sub_0_r in H. simpl in *. lia.
  Qed.
End BS.

(** Searching a strictly sorted list for a target. *)
Section BSSorted.
  Context {K : Type} {cmp : K -> K -> comparison} (L : OrdLaws cmp).
  Context {T : Type} (key : T -> K).

  Definition ksorted (l : list T) : Prop := sorted cmp (map key l).

  Lemma ksorted_cons x l :
    ksorted (x :: l) <-> ksorted l /\ (forall y, In y l -> cmp (key x) (key y) = Lt).
  Proof.
    unfold ksorted. simpl. rewrite sorted_cons_iff. split; intros [H1 H2]; split; auto.
    - intros y Hy. apply H2, in_map, Hy.
    - intros y Hy. apply in_map_iff in Hy as (z & <- & Hz). auto.
  Qed.

  Lemma ksorted_nil : ksorted [].
  Proof. apply sorted_nil. Qed.

  Lemma ksorted_app l1 l2 :
    ksorted (l1 ++ l2) <->
    ksorted l1 /\ ksorted l2 /\
    (forall x y, In x l1 -> In y l2 -> cmp (key x) (key y) = Lt).
  Proof.
    unfold ksorted. rewrite map_app, sorted_app.
    split; intros (H1 & H2 & H3); repeat split; auto.
    - intros x y Hx Hy. apply H3; now apply in_map.
    - intros x y Hx Hy. apply in_map_iff in Hx as (x' & <- & Hx), Hy as (y' & <- & Hy). auto.
  Qed.

  (** Every strictly sorted list splits around a target key. *)
  Lemma ksorted_split k l :
    ksorted l ->
    exists l1 l2,
      (forall x, In x l1 -> cmp (key x) k = Lt) /\ (forall x, In x l2 -> cmp (key x) k = Gt) /\
      (l = l1 ++ l2 \/ exists y, l = l1 ++ y :: l2 /\ cmp (key y) k = Eq).
  Proof.
    induction l as [|x l IH]; intros Hs.
    - exists [], []. repeat split; simpl; try tauto; auto.
    - apply ksorted_cons in Hs as [Hs Hx].
      destruct (cmp (key x) k) eqn:E.
      + exists [], l. repeat split; simpl; try tauto.
        * intros y Hy. apply Hx in Hy. apply (cmp_gt_lt L).
          now rewrite <- (cmp_eq_l L _ _ _ E).
        * right. exists x. auto.
      + destruct (IH Hs) as (l1 & l2 & H1 & H2 & H3). exists (x :: l1), l2. repeat split; auto.
        * intros y [<-|Hy]; auto.
        * destruct H3 as [->|(y & -> & Ey)]; [now left|]. right. exists y. auto.
      + exists [], (x :: l). repeat split; simpl; try tauto; auto.
        intros y [<-|Hy]; auto. apply (cmp_gt_lt L). apply (cmp_gt_lt L) in E.
        eapply (cmp_lt_trans L); eauto.
  Qed.
End BSSorted.

(** list indices *)
Lemma insert_at_app {T} (l1 l2 : list T) x : insert_at (length l1) x (l1 ++ l2) = l1 ++ x :: l2.
Proof.
  unfold insert_at. rewrite firstn_app, skipn_app, Nat.sub_diag, firstn_all, skipn_all. simpl.
  now rewrite app_nil_r.
Qed.

Lemma skipn_S_app {T} (l1 l2 : list T) y : skipn (S (length l1)) (l1 ++ y :: l2) = l2.
Proof.
  replace (l1 ++ y :: l2) with ((l1 ++ [y]) ++ l2) by now rewrite <- app_assoc.
  replace (S (length l1)) with (length (l1 ++ [y])) by (rewrite app_length; simpl; lia).
  rewrite skipn_app, Nat.sub_diag, skipn_all. reflexivity.
Qed.

Lemma firstn_app_exact {T} (l1 l2 : list T) : firstn (length l1) (l1 ++ l2) = l1.
Proof. rewrite firstn_app, Nat.sub_diag, firstn_all. simpl. now rewrite app_nil_r. Qed.

Lemma skipn_app_exact {T} (l1 l2 : list T) : skipn (length l1) (l1 ++ l2) = l2.
Proof. rewrite skipn_app, Nat.sub_diag, skipn_all. reflexivity. Qed.

Lemma remove_at_app {T} (l1 l2 : list T) y : remove_at (length l1) (l1 ++ y :: l2) = l1 ++ l2.
Proof. unfold remove_at. now rewrite skipn_S_app, firstn_app_exact. Qed.

Lemma set_at_app {T} (l1 l2 : list T) x y : set_at (length l1) x (l1 ++ y :: l2) = l1 ++ x :: l2.
Proof. unfold set_at. now rewrite skipn_S_app, firstn_app_exact. Qed.

(** ** Stable sort *)
Section Sort.
  Context {T : Type} {cmp : T -> T -> comparison} (L : OrdLaws cmp).

  Definition wsorted (l : list T) : Prop := StronglySorted (fun x y => cmp x y <> Gt) l.

  Lemma wsorted_cons x l :
    wsorted (x :: l) <-> wsorted l /\ (forall y, In y l -> cmp x y <> Gt).
  Proof.
    unfold wsorted. split.
    - intros H. inversion H as [|? ? H1 H2]; subst. split; auto. now apply Forall_forall.
    - intros [H1 H2]. constructor; auto. now apply Forall_forall.
  Qed.

  Definition eqclass (x : T) (l : list T) : list T := filter (eqb_of cmp x) l.

  Lemma sort_insert_In x y l : In y (sort_insert cmp x l) <-> y = x \/ In y l.
  Proof.
    induction l as [|z l IH]; simpl; [split; intros [H|H]; auto; tauto|].
    destruct (cmp x z); simpl; rewrite ?IH; firstorder (subst; auto).
  Qed.

  Lemma sort_insert_wsorted x l : wsorted l -> wsorted (sort_insert cmp x l).
  Proof.
    induction l as [|y l IH]; simpl; intros H.
    - apply wsorted_cons. split; [constructor|]. intros ? [].
    - pose proof H as H0. apply wsorted_cons in H as [H1 H2].
      destruct (cmp x y) eqn:E.
      + apply wsorted_cons. split; auto. intros z [<-|Hz]; [congruence|].
        apply H2 in Hz. now rewrite (cmp_eq_l L _ _ z E).
      + apply wsorted_cons. split; auto. intros z [<-|Hz]; [congruence|].
        apply H2 in Hz. apply (ord_trans L x y z); congruence.
      + apply wsorted_cons. split; auto. intros z Hz. apply sort_insert_In in Hz as [->|Hz]; auto.
        apply (cmp_gt_lt L) in E. congruence.
  Qed.

  Lemma sort_insert_eqclass z x l : eqclass z (sort_insert cmp x l) = eqclass z (x :: l).
  Proof.
    induction l as [|y l IH]; simpl; [reflexivity|].
    destruct (cmp x y) eqn:E; try reflexivity.
    simpl. simpl in IH. unfold eqclass in *. rewrite IH.
    unfold eqb_of. destruct (cmp z y) eqn:Ey; try reflexivity.
    destruct (cmp z x) eqn:Ex; try reflexivity.
    exfalso. rewrite <- (cmp_eq_l L _ _ y Ex) in E. congruence.
  Qed.

  Lemma sort_by_wsorted l : wsorted (sort_by cmp l).
  Proof.
    induction l as [|x l IH]; simpl; [constructor|]. now apply sort_insert_wsorted.
  Qed.

  Lemma sort_by_eqclass z l : eqclass z (sort_by cmp l) = eqclass z l.
  Proof.
    induction l as [|x l IH]; simpl; [reflexivity|].
    rewrite sort_insert_eqclass. simpl. unfold eqclass in *. now rewrite IH.
  Qed.

  Lemma sort_by_In x l : In x (sort_by cmp l) <-> In x l.
  Proof.
    induction l as [|y l IH]; simpl; [tauto|]. rewrite sort_insert_In, IH.
    firstorder (subst; auto).
  Qed.

  Lemma sort_insert_perm x l : Permutation (sort_insert cmp x l) (x :: l).
  Proof.
    induction l as [|y l IH]; simpl; [auto|].
    destruct (cmp x y); auto. etransitivity; [apply perm_skip, IH|]. apply perm_swap.
  Qed.

  Lemma sort_by_perm l : Permutation (sort_by cmp l) l.
  Proof.
    induction l as [|x l IH]; simpl; [auto|].
    etransitivity; [apply sort_insert_perm|]. now apply perm_skip.
  Qed.

  (** Uniqueness: a sorted rearrangement keeping every equivalence class in order is
      determined, so "stable sort" has only one result. *)
  Lemma stable_sort_unique l1 l2 :
    wsorted l1 -> wsorted l2 -> (forall z, eqclass z l1 = eqclass z l2) -> l1 = l2.
  Proof.
    revert l2. induction l1 as [|x l1 IH]; intros l2 H1 H2 E.
    - destruct l2 as [|y l2]; [reflexivity|]. specialize (E y). simpl in E.
      unfold eqb_of in E. rewrite (cmp_refl L) in E. discriminate.
    - destruct l2 as [|y l2].
      { specialize (E x). simpl in E. unfold eqb_of in E. rewrite (cmp_refl L) in E. discriminate. }
      apply wsorted_cons in H1 as [H1 H1'], H2 as [H2 H2'].
      assert (Hyx : cmp y x <> Gt).
      { assert (Hin : In x (eqclass x (y :: l2))).
        { rewrite <- E. apply filter_In. split; [now left|].
          unfold eqb_of. now rewrite (cmp_refl L). }
        apply filter_In in Hin as [[->|Hin] _]; auto; try (rewrite (cmp_refl L); discriminate). }
      assert (Hxy : cmp x y <> Gt).
      { assert (Hin : In y (eqclass y (x :: l1))).
        { rewrite E. apply filter_In. split; [now left|].
          unfold eqb_of. now rewrite (cmp_refl L). }
        apply filter_In in Hin as [[->|Hin] _]; auto; try (rewrite (cmp_refl L); discriminate). }
      assert (Exy : cmp x y = Eq).
      { rewrite (ord_opp L x y) in Hyx. destruct (cmp x y); simpl in *; congruence. }
      pose proof (E x) as Ex. simpl in Ex. unfold eqb_of in Ex.
      rewrite (cmp_refl L), Exy in Ex. injection Ex as -> _.
      f_equal. apply IH; auto. intros z. specialize (E z). simpl in E.
      destruct (eqb_of cmp z y); [now injection E|assumption].
  Qed.

  (** ** dedup *)
  Lemma dedup_from_In (same : T -> T -> bool) x y l : In y (dedup_from same x l) -> y = x \/ In y l.
  Proof.
    revert x. induction l as [|z l IH]; simpl; intros x H; [destruct H as [->|[]]; auto|].
    destruct (same z x).
    - apply IH in H as [->|H]; auto.
    - destruct H as [->|H]; auto. apply IH in H as [->|H]; auto.
  Qed.

  Let same x y := eqb_of cmp x y.

  Lemma dedup_from_sorted x l :
    wsorted (x :: l) -> sorted cmp (dedup_from same x l).
  Proof.
    revert x. induction l as [|y l IH]; simpl; intros x H.
    - apply sorted_single.
    - apply wsorted_cons in H as [H1 H2]. pose proof H1 as H1'.
      apply wsorted_cons in H1' as [H3 H4].
      unfold same, eqb_of at 1. destruct (cmp y x) eqn:E.
      + apply IH. apply wsorted_cons. split; auto. intros z Hz. apply H2. now right.
      + exfalso. apply (H2 y); [now left|]. now apply (cmp_lt_gt L).
      + apply sorted_cons; auto. intros z Hz. apply dedup_from_In in Hz.
        apply (cmp_gt_lt L) in E. destruct Hz as [->|Hz]; [assumption|].
        eapply (cmp_lt_le L); eauto.
  Qed.

  Lemma dedup_sorted l : wsorted l -> sorted cmp (dedup same l).
  Proof. destruct l as [|x l]; [intros; apply sorted_nil|apply dedup_from_sorted]. Qed.

  Definition first_of (z : T) (l : list T) : option T := find (eqb_of cmp z) l.

  Lemma first_of_eqclass z l : first_of z l = hd_error (eqclass z l).
  Proof.
    unfold first_of, eqclass. induction l as [|x l IH]; simpl; [reflexivity|].
    destruct (eqb_of cmp z x); auto.
  Qed.

  Lemma dedup_from_first z x l : wsorted (x :: l) ->
    first_of z (dedup_from same x l) = first_of z (x :: l).
  Proof.
    revert x. induction l as [|y l IH]; simpl; intros x H; [reflexivity|].
    apply wsorted_cons in H as [H1 H2]. pose proof H1 as H1'.
    apply wsorted_cons in H1' as [H3 H4].
    unfold same at 1, eqb_of at 1. destruct (cmp y x) eqn:E.
    - rewrite IH by (apply wsorted_cons; split; auto; intros w Hw; apply H2; now right).
      simpl. unfold eqb_of.
      destruct (cmp z x) eqn:Ex; auto.
      + rewrite (cmp_eq_r L _ _ z E), Ex. reflexivity.
      + rewrite (cmp_eq_r L _ _ z E), Ex. reflexivity.
    - exfalso. apply (H2 y); [now left|]. now apply (cmp_lt_gt L).
    - unfold first_of. simpl. unfold first_of in IH. rewrite IH; auto.
  Qed.

  Lemma dedup_first z l : wsorted l -> first_of z (dedup same l) = first_of z l.
  Proof. destruct l as [|x l]; [reflexivity|apply dedup_from_first]. Qed.

  (** sort followed by dedup: the first occurrence of every class, in strict order *)
  Lemma sort_dedup_sorted l : sorted cmp (dedup same (sort_by cmp l)).
  Proof. apply dedup_sorted, sort_by_wsorted. Qed.

  Lemma sort_dedup_first z l : first_of z (dedup same (sort_by cmp l)) = first_of z l.
  Proof.
    rewrite dedup_first by apply sort_by_wsorted.
    rewrite !first_of_eqclass. now rewrite sort_by_eqclass.
  Qed.

  (** strictly sorted lists are determined by the representative of every class *)
  Lemma first_of_In z x l : first_of z l = Some x -> In x l /\ cmp z x = Eq.
  Proof.
    unfold first_of. intros H. apply find_some in H as [H1 H2]. split; auto.
    unfold eqb_of in H2. destruct (cmp z x); congruence.
  Qed.

  Lemma first_of_sorted z x l : sorted cmp l -> In x l -> cmp z x = Eq -> first_of z l = Some x.
  Proof.
    intros Hs Hx E. destruct (first_of z l) as [y|] eqn:Hf.
    - apply first_of_In in Hf as [Hy Ey]. f_equal. eapply (sorted_In_eq L); eauto.
      rewrite <- (cmp_eq_l L _ _ x Ey). assumption.
    - exfalso. unfold first_of in Hf. apply find_none with (x := x) in Hf; auto.
      unfold eqb_of in Hf. now rewrite E in Hf.
  Qed.

  Lemma first_of_None z l : first_of z l = None <-> ~ mem cmp z l.
  Proof.
    rewrite <- memb_false. unfold first_of, memb. induction l as [|x l IH]; simpl; [tauto|].
    unfold eqb_of at 1. destruct (cmp z x); simpl; auto; split; congruence.
  Qed.

  Lemma sorted_first_ext l1 l2 :
    sorted cmp l1 -> sorted cmp l2 -> (forall z, first_of z l1 = first_of z l2) -> l1 = l2.
  Proof.
    intros H1 H2 E. apply (sorted_ext L); auto. intros x. split; intros Hx.
    - assert (Q : first_of x l1 = Some x) by (apply first_of_sorted; auto; apply (cmp_refl L)).
      rewrite E in Q. now apply first_of_In in Q as [? _].
    - assert (Q : first_of x l2 = Some x) by (apply first_of_sorted; auto; apply (cmp_refl L)).
      rewrite <- E in Q. now apply first_of_In in Q as [? _].
  Qed.
End Sort.

(** Radix trees over key components that may compare Equal without being identical: everything the
    operations do is reduced to trees over numbers. Facts for C133. *)
From Verif Require Export RadixReach PropRadix RadixRename.

(** ** Specification: what a tree binds, up to Equal key components *)
(** the two keys compare Equal component by component *)
Definition same_key {K} (cmp : K -> K -> comparison) (k k' : list K) : Prop := Forall2 (fun x y => cmp x y = Eq) k k'.
(** the tree holds v under some key that equals k *)
Definition hasq {K V} (cmp : K -> K -> comparison) (t : rtree K V) (k : list K) (v : V) : Prop :=
  exists k', same_key cmp k' k /\ has t k' v.
Definition holdsq {K V} (cmp : K -> K -> comparison) (t : rtree K V) (k : list K) (o : option V) : Prop :=
  match o with Some v => hasq cmp t k v | None => forall v, ~ hasq cmp t k v end.
(** t is the pointwise combination of a and b by g *)
Definition pointwiseq {K V W} (cmp : K -> K -> comparison) (g : option V -> option W -> option V)
    (a : rtree K V) (b : rtree K W) (t : rtree K V) (k : list K) : Prop :=
  forall o, holdsq cmp t k o <-> exists x y, holdsq cmp a k x /\ holdsq cmp b k y /\ o = g x y.
(** some beginning of k equals a key of b whose value f accepts *)
Definition coveredq {K W} (cmp : K -> K -> comparison) (f : W -> bool) (b : rtree K W) (k : list K) : Prop :=
  exists k1 k2 w, k = k1 ++ k2 /\ hasq cmp b k1 w /\ f w = true.

(** ** Naturality of the specification *)
Lemma has_node {K V} (p : list K) (o : option V) cs k v :
  has (Node p o cs) k v <-> (o = Some v /\ k = p) \/ exists c k1, k = p ++ k1 /\ In c cs /\ has c k1 v.
Proof.
  split.
  - intros H. inversion H; subst; eauto 8.
  - intros [[-> ->]|(c & k1 & -> & Hin & Hc)]; [constructor|econstructor; eassumption].
Qed.
Lemma has_ren {K K' V} (r : K -> K') (t : rtree K V) : forall k v,
  has (renamed r id t) k v <-> exists k0, k = map r k0 /\ has t k0 v.
Proof.
  induction t as [p o cs IH] using rtree_ind'. rewrite Forall_forall in IH. intros k v. cbn [renamed]. rewrite has_node. split.
  - intros [[E ->]|(c & k1 & -> & Hin & Hc)].
    + exists p. split; [reflexivity|]. apply has_node. left. split; [|reflexivity]. destruct o; [exact E|discriminate].
    + apply in_map_iff in Hin as (c0 & <- & Hin). apply (IH _ Hin) in Hc as (k0 & -> & Hc).
      exists (p ++ k0). rewrite map_app. split; [reflexivity|]. econstructor; eassumption.
  - intros (k0 & -> & H). apply has_node in H as [[-> ->]|(c & k1 & -> & Hin & Hc)]; [now left|right].
    exists (renamed r id c), (map r k1). rewrite map_app. split; [reflexivity|]. split; [now apply in_map|].
    apply (IH _ Hin). eauto.
Qed.

Section Natural.
  Context {X Y : Type} (c : X -> X -> comparison) (c' : Y -> Y -> comparison) (r : X -> Y).
  Context (Hr : forall x y, c' (r x) (r y) = c x y).
  Lemma same_key_nat a : forall b, same_key c' (map r a) (map r b) <-> same_key c a b.
  Proof using Hr.
    induction a as [|x a IH]; intros [|y b]; cbn [map]; unfold same_key in *; (split; intros H; inversion H; subst; constructor).
    - now rewrite <- Hr.
    - now apply IH.
    - now rewrite Hr.
    - now apply IH.
  Qed.
  Lemma hasq_nat {V} (t : rtree X V) k v : hasq c' (renamed r id t) (map r k) v <-> hasq c t k v.
  Proof using Hr.
    unfold hasq. split.
    - intros (k' & S & H). apply has_ren in H as (k0 & -> & H). apply same_key_nat in S. eauto.
    - intros (k0 & S & H). exists (map r k0). split; [now apply same_key_nat|]. apply has_ren. eauto.
  Qed.
  Lemma holdsq_nat {V} (t : rtree X V) k o : holdsq c' (renamed r id t) (map r k) o <-> holdsq c t k o.
  Proof using Hr.
    destruct o as [v|]; cbn [holdsq]; [apply hasq_nat|]. split; intros H v Hv; apply (H v); now apply hasq_nat.
  Qed.
  Lemma pointwiseq_nat {V W} g (a : rtree X V) (b : rtree X W) t k :
    pointwiseq c' g (renamed r id a) (renamed r id b) (renamed r id t) (map r k) <-> pointwiseq c g a b t k.
  Proof using Hr.
    unfold pointwiseq. split; intros H o; specialize (H o); revert H; rewrite holdsq_nat; intros ->;
      split; intros (x & y & Hx & Hy & ->); exists x, y; rewrite ?holdsq_nat in *; auto.
  Qed.
  Lemma coveredq_nat {W} f (b : rtree X W) k : coveredq c' f (renamed r id b) (map r k) <-> coveredq c f b k.
  Proof using Hr.
    unfold coveredq. split.
    - intros (k1 & k2 & w & E & H & Hf). apply map_eq_app in E as (l1 & l2 & -> & <- & <-).
      exists l1, l2, w. split; [reflexivity|]. split; [now apply hasq_nat|assumption].
    - intros (k1 & k2 & w & -> & H & Hf). exists (map r k1), (map r k2), w. rewrite map_app.
      split; [reflexivity|]. split; [now apply hasq_nat|assumption].
  Qed.
  Lemma wf_nat {V} canon (t : rtree X V) : wf c' canon (renamed r id t) <-> wf c canon t.
  Proof using Hr.
    induction t as [p o cs IH] using rtree_ind'. cbn [renamed wf].
    assert (Q1 : Forall (fun c : rtree Y V => t_prefix c <> []) (map (renamed r id) cs) <-> Forall (fun c => t_prefix c <> []) cs).
    { rewrite Forall_map. split; intros H; (eapply Forall_impl; [|exact H]); intros a Ha Q; apply Ha.
      - rewrite ren_prefix, Q. reflexivity.
      - rewrite ren_prefix in Q. now apply map_eq_nil in Q. }
    assert (Q0 : forall a b : rtree X V, head_lt c' (renamed r id a) (renamed r id b) <-> head_lt c a b).
    { intros a b. unfold head_lt. rewrite !ren_prefix. destruct (t_prefix a), (t_prefix b); cbn [map]; try reflexivity.
      now rewrite Hr. }
    assert (Q2 : StronglySorted (head_lt c') (map (renamed r id) cs) <-> StronglySorted (head_lt c) cs).
    { clear - Q0. induction cs as [|a cs IH]; cbn [map]; [split; constructor|]. split; intros H; inversion H; subst; constructor.
      - now apply IH.
      - rewrite Forall_map in *. eapply Forall_impl; [|eassumption]. intros b. apply Q0.
      - now apply IH.
      - rewrite Forall_map in *. eapply Forall_impl; [|eassumption]. intros b. apply Q0. }
    assert (Q3 : fold_right (fun x P => wf c' canon x /\ P) True (map (renamed r id) cs) <-> fold_right (fun x P => wf c canon x /\ P) True cs).
    { clear - IH. induction IH as [|a cs Ha _ IH]; cbn [map fold_right]; [reflexivity|]. now rewrite Ha, IH. }
    assert (Q4 : Forall (fun x : rtree Y V => t_is_empty x = false) (map (renamed r id) cs) <-> Forall (fun x => t_is_empty x = false) cs).
    { rewrite Forall_map. split; intros H; (eapply Forall_impl; [|exact H]); intros a; cbn beta; now rewrite ren_empty. }
    assert (Q5 : option_map (@id V) o = None <-> o = None) by (destruct o; split; discriminate || reflexivity).
    assert (Q6 : map (renamed r id) cs = [] <-> cs = []) by (destruct cs; split; discriminate || reflexivity).
    assert (Q7 : map r p = [] <-> p = []) by (destruct p; split; discriminate || reflexivity).
    now rewrite Q1, Q2, Q3, Q4, Q5, Q6, Q7, map_length.
  Qed.
End Natural.

(** ** Reduction to numbers *)
(** the key components of a tree *)
Fixpoint comps {K V} (t : rtree K V) : list K :=
  let 'Node p _ cs := t in p ++ concat (map comps cs).
Section Reduce.
  Context {K : Type} (cmp : K -> K -> comparison) (L : OrdLaws cmp) (l : list K).
  (** the components that occur, and the rank of each *)
  Definition member : Type := {x : K | In x l}.
  Definition name (m : member) : K := proj1_sig m.
  Definition below_in (x : K) : list K := filter (fun y => match cmp y x with Lt => true | _ => false end) l.
  Definition rank (m : member) : nat := length (below_in (name m)).
  Definition mcmp (x y : member) : comparison := Nat.compare (rank x) (rank y).
  Lemma filter_le {T} (p p' : T -> bool) m : (forall x, p x = true -> p' x = true) -> length (filter p m) <= length (filter p' m).
  Proof using.
    intros H. induction m as [|x m IH]; [apply le_n|]. cbn [filter]. specialize (H x).
    destruct (p x), (p' x); cbn [length]; first [lia|discriminate (H eq_refl)].
  Qed.
  Lemma filter_lt {T} (p p' : T -> bool) m z : (forall x, p x = true -> p' x = true) -> In z m -> p z = false -> p' z = true ->
    length (filter p m) < length (filter p' m).
  Proof using.
    intros H. induction m as [|x m IH]; [intros []|]. intros [->|Hin] Hz Hz'; cbn [filter].
    - rewrite Hz, Hz'. cbn [length]. pose proof (filter_le p p' m H). lia.
    - specialize (IH Hin Hz Hz'). specialize (H x). destruct (p x), (p' x); cbn [length]; first [lia|discriminate (H eq_refl)].
  Qed.
  Lemma rank_lt x y : cmp (name x) (name y) = Lt -> rank x < rank y.
  Proof using L.
    intros H. unfold rank, below_in. apply filter_lt with (z := name x).
    - intros z. destruct (cmp z (name x)) eqn:Q; try discriminate. intros _. now rewrite (cmp_lt_trans L _ _ _ Q H).
    - exact (proj2_sig x).
    - now rewrite (cmp_refl L).
    - now rewrite H.
  Qed.
  Lemma rank_eq x y : cmp (name x) (name y) = Eq -> rank x = rank y.
  Proof using L.
    intros H. unfold rank, below_in. f_equal. apply filter_ext. intros z.
    now rewrite (cmp_eq_r L _ _ z H).
  Qed.
  Lemma mcmp_name x y : cmp (name x) (name y) = mcmp x y.
  Proof using L.
    unfold mcmp. symmetry. destruct (cmp (name x) (name y)) eqn:Q.
    - apply Nat.compare_eq_iff. now apply rank_eq.
    - apply Nat.compare_lt_iff. now apply rank_lt.
    - apply Nat.compare_gt_iff. apply rank_lt. now apply (cmp_gt_lt L).
  Qed.
  Lemma lift_key k : incl k l -> exists k0, map name k0 = k.
  Proof using.
    induction k as [|x k IH]; intros H; [now exists []|].
    destruct IH as (k0 & E); [intros y Hy; apply H; now right|].
    exists (exist (fun x => In x l) x (H x (or_introl eq_refl)) :: k0). cbn [map]. now rewrite E.
  Qed.
  Lemma lift_tree {V} (t : rtree K V) : incl (comps t) l -> exists t0, renamed name id t0 = t.
  Proof using.
    induction t as [p o cs IH] using rtree_ind'. cbn [comps]. intros H.
    apply incl_app_inv in H as [Hp Hc]. destruct (lift_key p Hp) as (p0 & Ep).
    assert (exists cs0, map (renamed name id) cs0 = cs) as (cs0 & Ec).
    { clear Ep. induction IH as [|c cs Hcc _ IHcs]; [now exists []|]. cbn [map concat] in Hc.
      apply incl_app_inv in Hc as [H1 H2]. destruct (Hcc H1) as (c0 & E0). destruct (IHcs H2) as (cs0 & E1).
      exists (c0 :: cs0). cbn [map]. now rewrite E0, E1. }
    exists (Node p0 o cs0). cbn [renamed]. rewrite Ep, Ec. f_equal. now destruct o.
  Qed.
End Reduce.

(** ** Transfer: what holds over numbers holds over every total preorder *)
Definition keeps_order {X Y} (c : X -> X -> comparison) (c' : Y -> Y -> comparison) (r : X -> Y) : Prop :=
  forall x y, c' (r x) (r y) = c x y.
Section Transfer.
  Context {K : Type} (cmp : K -> K -> comparison) (L : OrdLaws cmp).
  Lemma two_maps l : exists (M : Type) (mc : M -> M -> comparison) (p : M -> K) (q : M -> nat),
    keeps_order mc cmp p /\ keeps_order mc Nat.compare q /\
    (forall k, incl k l -> exists k0, map p k0 = k) /\
    (forall V (t : rtree K V), incl (comps t) l -> exists t0, renamed p id t0 = t).
  Proof using L.
    exists (member l), (mcmp cmp l), (name l), (rank cmp l). split; [|split; [|split]].
    - intros x y. now apply mcmp_name.
    - intros x y. reflexivity.
    - intros k. apply lift_key.
    - intros V t. apply lift_tree.
  Qed.

  Section Binary.
    Context {V W : Type} (op : forall X, (X -> X -> comparison) -> rtree X V -> rtree X W -> res (rtree X V))
      (R : forall X, (X -> X -> comparison) -> rtree X V -> rtree X W -> rtree X V -> list X -> Prop)
      (Nop : forall X Y c c' (r : X -> Y), keeps_order c c' r -> forall a b,
         op Y c' (renamed r id a) (renamed r id b) = rmap (renamed r id) (op X c a b))
      (NR : forall X Y c c' (r : X -> Y), keeps_order c c' r -> forall a b t k,
         R Y c' (renamed r id a) (renamed r id b) (renamed r id t) (map r k) <-> R X c a b t k)
      (base : forall a b, WO Nat.compare a -> WO Nat.compare b ->
         exists t, op nat Nat.compare a b = Ok t /\ WO Nat.compare t /\
           (Canon Nat.compare a -> Canon Nat.compare b -> Canon Nat.compare t) /\ forall k, R nat Nat.compare a b t k).
    Lemma coarse2 a b : WO cmp a -> WO cmp b ->
      exists t, op K cmp a b = Ok t /\ WO cmp t /\ (Canon cmp a -> Canon cmp b -> Canon cmp t) /\ forall k, R K cmp a b t k.
    Proof using L Nop NR base.
      intros Wa Wb.
      assert (G : forall k, exists t, op K cmp a b = Ok t /\ WO cmp t /\ (Canon cmp a -> Canon cmp b -> Canon cmp t) /\ R K cmp a b t k).
      { intros k. destruct (two_maps (comps a ++ comps b ++ k)) as (M & mc & p & q & Hp & Hq & Lk & Lt0).
        destruct (Lt0 _ a) as (a0 & <-); [auto using incl_appl, incl_refl|].
        destruct (Lt0 _ b) as (b0 & <-); [apply incl_appr, incl_appl, incl_refl|].
        destruct (Lk k) as (k0 & <-); [apply incl_appr, incl_appr, incl_refl|]. clear Lk Lt0.
        destruct (base (renamed q id a0) (renamed q id b0)) as (t & E & Wt & Ct & Rt).
        - apply (wf_nat mc Nat.compare q Hq). now apply (wf_nat mc cmp p Hp) in Wa.
        - apply (wf_nat mc Nat.compare q Hq). now apply (wf_nat mc cmp p Hp) in Wb.
        - rewrite (Nop _ _ _ _ _ Hq) in E. destruct (op M mc a0 b0) as [t0| |] eqn:E0; try discriminate.
          cbn [rmap rbind] in E. injection E as <-. exists (renamed p id t0).
          rewrite (Nop _ _ _ _ _ Hp), E0. split; [reflexivity|]. split; [|split].
          + apply (wf_nat mc cmp p Hp). now apply (wf_nat mc Nat.compare q Hq) in Wt.
          + intros Ca Cb. apply (wf_nat mc cmp p Hp). apply (wf_nat mc Nat.compare q Hq). apply Ct.
            * apply (wf_nat mc Nat.compare q Hq). now apply (wf_nat mc cmp p Hp) in Ca.
            * apply (wf_nat mc Nat.compare q Hq). now apply (wf_nat mc cmp p Hp) in Cb.
          + apply (NR _ _ _ _ _ Hp). apply (NR _ _ _ _ _ Hq). apply Rt. }
      destruct (G []) as (t & E & Wt & Ct & _). exists t. split; [assumption|]. split; [assumption|]. split; [assumption|].
      intros k. destruct (G k) as (t' & E' & _ & _ & Rt). now replace t with t' by congruence.
    Qed.
  End Binary.

  (** a question about two trees *)
  Section Ask.
    Context {V W : Type} (op : forall X, (X -> X -> comparison) -> rtree X V -> rtree X W -> res bool)
      (P R : forall X, (X -> X -> comparison) -> rtree X V -> rtree X W -> Prop)
      (Nop : forall X Y c c' (r : X -> Y), keeps_order c c' r -> forall a b,
         op Y c' (renamed r id a) (renamed r id b) = op X c a b)
      (NP : forall X Y c c' (r : X -> Y), keeps_order c c' r -> forall a b,
         P Y c' (renamed r id a) (renamed r id b) <-> P X c a b)
      (NR : forall X Y c c' (r : X -> Y), keeps_order c c' r -> forall a b,
         R Y c' (renamed r id a) (renamed r id b) <-> R X c a b)
      (base : forall a b, P nat Nat.compare a b -> exists x, op nat Nat.compare a b = Ok x /\ (x = true <-> R nat Nat.compare a b)).
    Lemma coarse_ask a b : P K cmp a b -> exists x, op K cmp a b = Ok x /\ (x = true <-> R K cmp a b).
    Proof using L Nop NP NR base.
      intros Pab. destruct (two_maps (comps a ++ comps b)) as (M & mc & p & q & Hp & Hq & Lk & Lt0).
      destruct (Lt0 _ a) as (a0 & <-); [auto using incl_appl, incl_refl|].
      destruct (Lt0 _ b) as (b0 & <-); [auto using incl_appr, incl_refl|]. clear Lk Lt0.
      destruct (base (renamed q id a0) (renamed q id b0)) as (x & E & H).
      - apply (NP _ _ _ _ _ Hq). now apply (NP _ _ _ _ _ Hp) in Pab.
      - exists x. rewrite (Nop _ _ _ _ _ Hp), <- (Nop _ _ _ _ _ Hq). split; [assumption|].
        rewrite H, (NR _ _ _ _ _ Hq). now rewrite (NR _ _ _ _ _ Hp).
    Qed.
  End Ask.

  (** one tree and a key *)
  Section Unary.
    Context {V U : Type} (Z : Type -> Type) (zmap : forall X Y, (X -> Y) -> Z X -> Z Y)
      (op : forall X, (X -> X -> comparison) -> rtree X V -> list X -> res (Z X))
      (R : forall X, (X -> X -> comparison) -> rtree X V -> list X -> Z X -> list X -> Prop)
      (Nop : forall X Y c c' (r : X -> Y), keeps_order c c' r -> forall t k,
         op Y c' (renamed r id t) (map r k) = rmap (zmap X Y r) (op X c t k))
      (NR : forall X Y c c' (r : X -> Y), keeps_order c c' r -> forall t k z x,
         R Y c' (renamed r id t) (map r k) (zmap X Y r z) (map r x) <-> R X c t k z x)
      (base : forall t k, WO Nat.compare t -> exists z, op nat Nat.compare t k = Ok z /\ forall x, R nat Nat.compare t k z x).
    Lemma coarse1 t k : WO cmp t -> exists z, op K cmp t k = Ok z /\ forall x, R K cmp t k z x.
    Proof using L Nop NR base.
      intros Wt.
      assert (G : forall x, exists z, op K cmp t k = Ok z /\ R K cmp t k z x).
      { intros x. destruct (two_maps (comps t ++ k ++ x)) as (M & mc & p & q & Hp & Hq & Lk & Lt0).
        destruct (Lt0 _ t) as (t0 & <-); [auto using incl_appl, incl_refl|].
        destruct (Lk k) as (k0 & <-); [apply incl_appr, incl_appl, incl_refl|].
        destruct (Lk x) as (x0 & <-); [apply incl_appr, incl_appr, incl_refl|]. clear Lk Lt0.
        destruct (base (renamed q id t0) (map q k0)) as (z & E & Hz).
        - apply (wf_nat mc Nat.compare q Hq). now apply (wf_nat mc cmp p Hp) in Wt.
        - rewrite (Nop _ _ _ _ _ Hq) in E. destruct (op M mc t0 k0) as [z0| |] eqn:E0; try discriminate.
          cbn [rmap rbind] in E. injection E as <-. exists (zmap M K p z0).
          rewrite (Nop _ _ _ _ _ Hp), E0. split; [reflexivity|]. apply (NR _ _ _ _ _ Hp). apply (NR _ _ _ _ _ Hq). apply Hz. }
      destruct (G []) as (z & E & _). exists z. split; [assumption|].
      intros x. destruct (G x) as (z' & E' & Rz). now replace z with z' by congruence.
    Qed.
  End Unary.
End Transfer.

(** over numbers, same keys are identical *)
Lemma same_key_id a b : same_key Nat.compare a b <-> a = b.
Proof.
  split; [|intros ->; induction b; constructor; [apply Nat.compare_refl|assumption]].
  intros H. induction H as [|x y a b E _ IH]; [reflexivity|]. apply Nat.compare_eq in E. now rewrite E, IH.
Qed.
Lemma hasq_id {V} (t : rtree nat V) k v : hasq Nat.compare t k v <-> has t k v.
Proof.
  unfold hasq. split; [|intros H; exists k; split; [now apply same_key_id|assumption]].
  intros (k' & S & H). apply same_key_id in S. now subst.
Qed.
Lemma holdsq_id {V} (t : rtree nat V) k o : holdsq Nat.compare t k o <-> holds t k o.
Proof.
  destruct o as [v|]; cbn [holdsq holds]; [apply hasq_id|]. split; intros H v Hv; apply (H v); now apply hasq_id.
Qed.
Lemma pointwiseq_id {V W} g (a : rtree nat V) (b : rtree nat W) t :
  pointwise g a b t -> forall k, pointwiseq Nat.compare g a b t k.
Proof.
  intros H k o. rewrite holdsq_id, (H k o). split; intros (x & y & Hx & Hy & E); exists x, y; rewrite ?holdsq_id in *; auto.
Qed.
Lemma coveredq_id {W} f (b : rtree nat W) k : coveredq Nat.compare f b k <-> covered f b k.
Proof.
  unfold coveredq, covered. split; intros (k1 & k2 & w & E & H & Hf); exists k1, k2, w; rewrite ?hasq_id in *; auto.
Qed.

(** Specification vocabulary: what the property theorems are stated with.
    Nothing here refers to the model of the code. *)
From Coq Require Export List Arith Lia Bool Sorting.Sorted Sorting.Permutation.
Export ListNotations.

(** Laws of Rust's [Ord]: [cmp] is a total preorder. [Eq] may be coarser than identity, so the
    theorems can say which of two equal instances survives. *)
Record OrdLaws {T : Type} (cmp : T -> T -> comparison) : Prop := {
  ord_opp : forall x y, cmp y x = CompOpp (cmp x y);
  ord_trans : forall x y z, cmp x y <> Gt -> cmp y z <> Gt -> cmp x z <> Gt
}.

Arguments ord_opp {T cmp} _ _ _.
Arguments ord_trans {T cmp} _ _ _ _ _ _.

(** Stronger law used where elements comparing equal are identical. *)
Definition OrdEq {T : Type} (cmp : T -> T -> comparison) : Prop :=
  forall x y, cmp x y = Eq <-> x = y.

Section Order.
  Context {T : Type} (cmp : T -> T -> comparison).

  (** strictly increasing *)
  Definition sorted (l : list T) : Prop := StronglySorted (fun x y => cmp x y = Lt) l.

  (** [x] is a member of the set represented by [l]: some element compares equal to [x] *)
  Definition mem (x : T) (l : list T) : Prop := exists y, In y l /\ cmp x y = Eq.

  (** computable version, for specifications *)
  Definition memb (x : T) (l : list T) : bool :=
    existsb (fun y => match cmp x y with Eq => true | _ => false end) l.

  Definition eqb_of (x y : T) : bool := match cmp x y with Eq => true | _ => false end.
End Order.

(** Maps: association lists, looked up by the first entry with an equal key. *)
Section Maps.
  Context {K V : Type} (cmp : K -> K -> comparison).

  Fixpoint lookup (k : K) (l : list (K * V)) : option V :=
    match l with
    | [] => None
    | (k', v) :: l' => match cmp k k' with Eq => Some v | _ => lookup k l' end
    end.

  (** the last entry with an equal key *)
  Fixpoint lookup_last (k : K) (l : list (K * V)) : option V :=
    match l with
    | [] => None
    | (k', v) :: l' =>
        match lookup_last k l' with
        | Some w => Some w
        | None => match cmp k k' with Eq => Some v | _ => None end
        end
    end.

  Definition keys_sorted (l : list (K * V)) : Prop := sorted cmp (map fst l).
End Maps.

(** ** Order lemmas *)
Section OrdLemmas.
  Context {T : Type} {cmp : T -> T -> comparison} (L : OrdLaws cmp).

  Lemma cmp_refl x : cmp x x = Eq.
  Proof.
    pose proof (ord_opp L x x) as H. destruct (cmp x x); simpl in H; congruence.
  Qed.

  Lemma cmp_sym x y : cmp x y = Eq -> cmp y x = Eq.
  Proof. intros H. rewrite (ord_opp L x y), H. reflexivity. Qed.

  Lemma cmp_lt_gt x y : cmp x y = Lt <-> cmp y x = Gt.
  Proof. rewrite (ord_opp L x y). destruct (cmp x y); simpl; split; congruence. Qed.

  Lemma cmp_gt_lt x y : cmp x y = Gt <-> cmp y x = Lt.
  Proof. rewrite (ord_opp L x y). destruct (cmp x y); simpl; split; congruence. Qed.

  Lemma cmp_le_ge x y : cmp x y <> Gt <-> cmp y x <> Lt.
  Proof. rewrite (ord_opp L x y). destruct (cmp x y); simpl; split; congruence. Qed.

  Lemma cmp_eq_l x y z : cmp x y = Eq -> cmp x z = cmp y z.
  Proof.
    intros H. pose proof (cmp_sym _ _ H) as H'.
    assert (A1 : cmp x z <> Gt -> cmp y z <> Gt) by (apply (ord_trans L); congruence).
    assert (A2 : cmp y z <> Gt -> cmp x z <> Gt) by (apply (ord_trans L); congruence).
    assert (B1 : cmp z x <> Gt -> cmp z y <> Gt)
      by (intros Q; apply (ord_trans L z x y); congruence).
    assert (B2 : cmp z y <> Gt -> cmp z x <> Gt)
      by (intros Q; apply (ord_trans L z y x); congruence).
    rewrite (ord_opp L x z), (ord_opp L y z) in *.
    destruct (cmp x z), (cmp y z); simpl in *; try reflexivity; exfalso;
      (apply A1 + apply A2 + apply B1 + apply B2); congruence.
  Qed.

  Lemma cmp_eq_r x y z : cmp x y = Eq -> cmp z x = cmp z y.
  Proof.
    intros H. rewrite (ord_opp L x z), (ord_opp L y z), (cmp_eq_l _ _ z H). reflexivity.
  Qed.

  Lemma cmp_eq_trans x y z : cmp x y = Eq -> cmp y z = Eq -> cmp x z = Eq.
  Proof. intros H1 H2. now rewrite (cmp_eq_l _ _ z H1). Qed.

  Lemma cmp_lt_trans x y z : cmp x y = Lt -> cmp y z = Lt -> cmp x z = Lt.
  Proof.
    intros H1 H2.
    assert (cmp x z <> Gt) by (apply (ord_trans L x y z); congruence).
    destruct (cmp x z) eqn:E; try congruence; exfalso.
    rewrite <- (cmp_eq_r _ _ y E) in H2.
    apply cmp_lt_gt in H2. congruence.
  Qed.

  Lemma cmp_gt_trans x y z : cmp x y = Gt -> cmp y z = Gt -> cmp x z = Gt.
  Proof.
    rewrite !cmp_gt_lt. intros H1 H2. eapply cmp_lt_trans; eauto.
  Qed.

  Lemma cmp_lt_le x y z : cmp x y = Lt -> cmp y z <> Gt -> cmp x z = Lt.
  Proof.
    intros H1 H2. destruct (cmp y z) eqn:E; try congruence.
    - now rewrite <- (cmp_eq_r _ _ x E).
    - eapply cmp_lt_trans; eauto.
  Qed.

  Lemma cmp_le_lt x y z : cmp x y <> Gt -> cmp y z = Lt -> cmp x z = Lt.
  Proof.
    intros H1 H2. destruct (cmp x y) eqn:E; try congruence.
    - now rewrite (cmp_eq_l _ _ z E).
    - eapply cmp_lt_trans; eauto.
  Qed.

  (** sortedness *)
  Lemma sorted_nil : sorted cmp [].
  Proof. constructor. Qed.

  Lemma sorted_cons_inv x l :
    sorted cmp (x :: l) -> sorted cmp l /\ (forall y, In y l -> cmp x y = Lt).
  Proof.
    intros H. inversion H as [|? ? H1 H2]; subst. split; [assumption|].
    now apply Forall_forall.
  Qed.

  Lemma sorted_cons x l :
    sorted cmp l -> (forall y, In y l -> cmp x y = Lt) -> sorted cmp (x :: l).
  Proof. intros H1 H2. constructor; [assumption|]. now apply Forall_forall. Qed.

  Lemma sorted_cons_iff x l :
    sorted cmp (x :: l) <-> sorted cmp l /\ (forall y, In y l -> cmp x y = Lt).
  Proof. split; [apply sorted_cons_inv|]. intros [? ?]. now apply sorted_cons. Qed.

  Lemma sorted_app l1 l2 :
    sorted cmp (l1 ++ l2) <->
    sorted cmp l1 /\ sorted cmp l2 /\
    (forall x y, In x l1 -> In y l2 -> cmp x y = Lt).
  Proof.
    induction l1 as [|x l1 IH]; simpl.
    - split; [intros H; repeat split; auto using sorted_nil; intros ? ? [] |tauto].
    - rewrite !sorted_cons_iff, IH. split.
      + intros [(H1 & H2 & H3) H4]. repeat split; auto.
        * intros y Hy. apply H4, in_or_app; auto.
        * intros y z [->|Hy] Hz; [apply H4, in_or_app; auto | auto].
      + intros ((H1 & H2) & H3 & H4). repeat split; auto.
        intros y Hy. apply in_app_or in Hy. destruct Hy; auto.
  Qed.

  Lemma sorted_filter f l : sorted cmp l -> sorted cmp (filter f l).
  Proof.
    induction l as [|x l IH]; simpl; intros H; [apply sorted_nil|].
    apply sorted_cons_inv in H as [H1 H2].
    destruct (f x); auto. apply sorted_cons; auto.
    intros y Hy. apply filter_In in Hy as [Hy _]; auto.
  Qed.

  Lemma sorted_single x : sorted cmp [x].
  Proof. apply sorted_cons; [apply sorted_nil|]. intros ? []. Qed.

  Lemma sorted_NoDup l : sorted cmp l -> NoDup l.
  Proof.
    induction l as [|x l IH]; intros H; [constructor|].
    apply sorted_cons_inv in H as [H1 H2]. constructor; auto.
    intros Hin. apply H2 in Hin. rewrite cmp_refl in Hin. discriminate.
  Qed.

  Lemma sorted_In_eq l x y : sorted cmp l -> In x l -> In y l -> cmp x y = Eq -> x = y.
  Proof.
    induction l as [|z l IH]; intros H Hx Hy E; [destruct Hx|].
    apply sorted_cons_inv in H as [H1 H2].
    destruct Hx as [->|Hx], Hy as [->|Hy]; auto.
    - apply H2 in Hy. congruence.
    - apply H2 in Hx. apply cmp_sym in E. congruence.
  Qed.

  (** membership *)
  Lemma mem_In x l : In x l -> mem cmp x l.
  Proof. intros H. exists x. split; [assumption|apply cmp_refl]. Qed.

  Lemma mem_cons x y l : mem cmp x (y :: l) <-> cmp x y = Eq \/ mem cmp x l.
  Proof.
    unfold mem. split.
    - intros (z & [->|H] & E); eauto.
    - intros [E|(z & H & E)]; [exists y | exists z]; simpl; auto.
  Qed.

  Lemma mem_nil x : ~ mem cmp x [].
  Proof. intros (y & [] & _). Qed.

  Lemma mem_app x l1 l2 : mem cmp x (l1 ++ l2) <-> mem cmp x l1 \/ mem cmp x l2.
  Proof.
    unfold mem. split.
    - intros (y & H & E). apply in_app_or in H as [H|H]; eauto.
    - intros [(y & H & E)|(y & H & E)]; exists y; auto using in_or_app.
  Qed.

  Lemma mem_eq x y l : cmp x y = Eq -> mem cmp x l <-> mem cmp y l.
  Proof.
    intros E. unfold mem. split; intros (z & H & E'); exists z; split; auto.
    - now rewrite <- (cmp_eq_l _ _ z E).
    - now rewrite (cmp_eq_l _ _ z E).
  Qed.

  Lemma memb_spec x l : memb cmp x l = true <-> mem cmp x l.
  Proof.
    unfold memb, mem. rewrite existsb_exists.
    split; intros (y & H & E); exists y; split; auto.
    - destruct (cmp x y); congruence.
    - now rewrite E.
  Qed.

  Lemma memb_false x l : memb cmp x l = false <-> ~ mem cmp x l.
  Proof.
    rewrite <- memb_spec. destruct (memb cmp x l); split; congruence.
  Qed.

  Lemma mem_dec x l : {mem cmp x l} + {~ mem cmp x l}.
  Proof.
    destruct (memb cmp x l) eqn:E; [left; now apply memb_spec|right].
    now apply memb_false.
  Qed.

  (** A strictly sorted list is determined by its elements. *)
  Lemma sorted_ext l1 l2 :
    sorted cmp l1 -> sorted cmp l2 -> (forall x, In x l1 <-> In x l2) -> l1 = l2.
  Proof.
    revert l2. induction l1 as [|x l1 IH]; intros l2 H1 H2 E.
    - destruct l2 as [|y l2]; [reflexivity|]. exfalso. apply (E y). now left.
    - destruct l2 as [|y l2]; [exfalso; apply (E x); now left|].
      apply sorted_cons_inv in H1 as [H1 H1'], H2 as [H2 H2'].
      assert (x = y) as ->.
      { destruct (proj1 (E x) (or_introl eq_refl)) as [->|Hx]; [reflexivity|].
        destruct (proj2 (E y) (or_introl eq_refl)) as [->|Hy]; [reflexivity|].
        apply H1' in Hy. apply H2' in Hx. apply cmp_lt_gt in Hx. congruence. }
      f_equal. apply IH; auto. intros z. specialize (E z). simpl in E.
      split; intros Hz.
      + destruct (proj1 E (or_intror Hz)) as [->|]; auto.
        exfalso. apply H1' in Hz. rewrite cmp_refl in Hz. discriminate.
      + destruct (proj2 E (or_intror Hz)) as [->|]; auto.
        exfalso. apply H2' in Hz. rewrite cmp_refl in Hz. discriminate.
  Qed.

  (** up to [Eq] *)
  Lemma sorted_mem_ext l1 l2 :
    sorted cmp l1 -> sorted cmp l2 -> (forall x, mem cmp x l1 <-> mem cmp x l2) ->
    Forall2 (fun x y => cmp x y = Eq) l1 l2.
  Proof.
    revert l2. induction l1 as [|x l1 IH]; intros l2 H1 H2 E.
    - destruct l2 as [|y l2]; [constructor|]. exfalso.
      apply (mem_nil y). apply E. apply mem_In. now left.
    - destruct l2 as [|y l2].
      { exfalso. apply (mem_nil x). apply E. apply mem_In. now left. }
      apply sorted_cons_inv in H1 as [H1 H1'], H2 as [H2 H2'].
      assert (Exy : cmp x y = Eq).
      { assert (Hx : mem cmp x (y :: l2)) by (apply E, mem_In; now left).
        assert (Hy : mem cmp y (x :: l1)) by (apply E, mem_In; now left).
        apply mem_cons in Hx as [Hx|(z & Hz & Ez)]; [assumption|].
        apply mem_cons in Hy as [Hy|(w & Hw & Ew)]; [now apply cmp_sym|].
        apply H1' in Hw. apply H2' in Hz.
        rewrite <- (cmp_eq_r _ _ x Ew) in Hw. rewrite <- (cmp_eq_r _ _ y Ez) in Hz.
        apply cmp_lt_gt in Hz. congruence. }
      constructor; [assumption|]. apply IH; auto. intros z. specialize (E z).
      rewrite !mem_cons in E. split; intros Hz.
      + destruct (proj1 E (or_intror Hz)) as [Q|]; [|assumption].
        exfalso. destruct Hz as (w & Hw & Ew). apply H1' in Hw.
        rewrite (cmp_eq_l _ _ w Exy) in Hw.
        rewrite <- (cmp_eq_r _ _ y Ew) in Hw. apply cmp_sym in Q. congruence.
      + destruct (proj2 E (or_intror Hz)) as [Q|]; [|assumption].
        exfalso. destruct Hz as (w & Hw & Ew). apply H2' in Hw.
        rewrite <- (cmp_eq_r _ _ y Ew) in Hw.
        rewrite (cmp_eq_r _ _ z Exy) in Q. apply cmp_sym in Q. congruence.
  Qed.
End OrdLemmas.

(** ** Map lemmas *)
Section MapLemmas.
  Context {K V : Type} {cmp : K -> K -> comparison} (L : OrdLaws cmp).
  Implicit Types l : list (K * V).

  Lemma lookup_In k l v :
    lookup cmp k l = Some v -> exists k', In (k', v) l /\ cmp k k' = Eq.
  Proof.
    induction l as [|[k' w] l IH]; simpl; [discriminate|].
    destruct (cmp k k') eqn:E; intros H.
    - injection H as ->. exists k'. auto.
    - apply IH in H as (k2 & H & E2). exists k2; auto.
    - apply IH in H as (k2 & H & E2). exists k2; auto.
  Qed.

  Lemma lookup_None k l :
    lookup cmp k l = None <-> forall k' v, In (k', v) l -> cmp k k' <> Eq.
  Proof.
    induction l as [|[k' w] l IH]; simpl; [split; auto; intros _ ? ? [] |].
    destruct (cmp k k') eqn:E.
    - split; [discriminate|]. intros H. exfalso. apply (H k' w); auto.
    - rewrite IH. split; intros H.
      + intros k2 v [[= -> ->]|Hin]; [congruence|eauto].
      + intros k2 v Hin. eauto.
    - rewrite IH. split; intros H.
      + intros k2 v [[= -> ->]|Hin]; [congruence|eauto].
      + intros k2 v Hin. eauto.
  Qed.

  Lemma keys_sorted_cons k v l :
    keys_sorted cmp ((k, v) :: l) <->
    keys_sorted cmp l /\ (forall k' v', In (k', v') l -> cmp k k' = Lt).
  Proof.
    unfold keys_sorted. simpl. rewrite sorted_cons_iff by assumption.
    split; intros [H1 H2]; split; auto.
    - intros k' v' H. apply H2. apply in_map_iff. exists (k', v'). auto.
    - intros k' H. apply in_map_iff in H as ([k2 v2] & <- & H). eauto.
  Qed.

  Lemma keys_sorted_unique l k1 v1 k2 v2 :
    keys_sorted cmp l -> In (k1, v1) l -> In (k2, v2) l -> cmp k1 k2 = Eq ->
    k1 = k2 /\ v1 = v2.
  Proof.
    induction l as [|[k v] l IH]; intros H H1 H2 E; [destruct H1|].
    apply keys_sorted_cons in H as [Hs Hl].
    destruct H1 as [[= -> ->]|H1], H2 as [[= -> ->]|H2]; auto.
    - apply Hl in H2. congruence.
    - apply Hl in H1. apply (cmp_sym L) in E. congruence.
  Qed.

  Lemma lookup_sorted_In k k' v l :
    keys_sorted cmp l -> In (k', v) l -> cmp k k' = Eq -> lookup cmp k l = Some v.
  Proof.
    intros Hs Hin E. destruct (lookup cmp k l) as [w|] eqn:Hl.
    - apply lookup_In in Hl as (k2 & H2 & E2).
      destruct (keys_sorted_unique l k' v k2 w) as [_ ->]; auto.
      rewrite <- (cmp_eq_l L _ _ k2 E). assumption.
    - exfalso. rewrite lookup_None in Hl. eapply Hl; eauto.
  Qed.

  Lemma lookup_sorted_iff k v l :
    keys_sorted cmp l ->
    (lookup cmp k l = Some v <-> exists k', In (k', v) l /\ cmp k k' = Eq).
  Proof.
    intros Hs. split; [apply lookup_In|]. intros (k' & H & E).
    eapply lookup_sorted_In; eauto.
  Qed.

  Lemma lookup_eq k1 k2 l : cmp k1 k2 = Eq -> lookup cmp k1 l = lookup cmp k2 l.
  Proof.
    intros E. induction l as [|[k v] l IH]; simpl; [reflexivity|].
    rewrite (cmp_eq_l L _ _ k E), IH. reflexivity.
  Qed.

  Lemma lookup_app k l1 l2 :
    lookup cmp k (l1 ++ l2) =
    match lookup cmp k l1 with Some v => Some v | None => lookup cmp k l2 end.
  Proof.
    induction l1 as [|[k' v] l1 IH]; simpl; [reflexivity|].
    destruct (cmp k k'); auto.
  Qed.

  Lemma lookup_mem k l : (exists v, lookup cmp k l = Some v) <-> mem cmp k (map fst l).
  Proof.
    split.
    - intros (v & H). apply lookup_In in H as (k' & H & E). exists k'. split; auto.
      apply in_map_iff. exists (k', v). auto.
    - intros (k' & H & E). apply in_map_iff in H as ([k2 v] & <- & H).
      destruct (lookup cmp k l) as [w|] eqn:Hl; [eauto|].
      rewrite lookup_None in Hl. exfalso. eapply Hl; eauto.
  Qed.
End MapLemmas.

(** ** Occurrences in a sequence *)
Section Occ.
  Context {T : Type} (cmp : T -> T -> comparison).
  (** [x] is the first element of its class to arrive in [l] *)
  Definition first_occ (x : T) (l : list T) : Prop :=
    exists l1 l2, l = l1 ++ x :: l2 /\ ~ mem cmp x l1.
  (** [x] is the last element of its class to arrive in [l] *)
  Definition last_occ (x : T) (l : list T) : Prop :=
    exists l1 l2, l = l1 ++ x :: l2 /\ ~ mem cmp x l2.
  (** pairwise different elements *)
  Definition distinct_list (l : list T) : Prop := ForallOrdPairs (fun x y => cmp x y <> Eq) l.
End Occ.

(** ** Example orders, for the non-vacuity examples *)
Lemma nat_ord : OrdLaws Nat.compare.
Proof.
  constructor.
  - intros x y. apply Nat.compare_antisym.
  - intros x y z. rewrite !Nat.compare_ngt_iff. lia.
Qed.
Lemma nat_ord_eq : OrdEq Nat.compare.
Proof. intros x y. apply Nat.compare_eq_iff. Qed.

(** order by a key: a lawful order whose Equal is coarser than identity *)
Definition by_key {T K} (key : T -> K) (cmp : K -> K -> comparison) (a b : T) : comparison :=
  cmp (key a) (key b).
Lemma by_key_ord {T K} (key : T -> K) (cmp : K -> K -> comparison) :
  OrdLaws cmp -> OrdLaws (by_key key cmp).
Proof.
  intros L. unfold by_key. constructor.
  - intros x y. apply (ord_opp L).
  - intros x y z. apply (ord_trans L).
Qed.

(** sortedness of a concrete list, by computation *)
Fixpoint sortedb {T} (cmp : T -> T -> comparison) (l : list T) : bool :=
  match l with
  | [] => true
  | x :: l' => forallb (fun y => match cmp x y with Lt => true | _ => false end) l' && sortedb cmp l'
  end.
Lemma sortedb_ok {T} (cmp : T -> T -> comparison) l : sortedb cmp l = true -> sorted cmp l.
Proof.
  induction l as [|x l IH]; simpl; [intros; apply sorted_nil|].
  rewrite andb_true_iff, forallb_forall. intros [H1 H2]. apply sorted_cons; auto.
  intros y Hy. apply H1 in Hy. destruct (cmp x y); congruence.
Qed.

(** ** Entries of a map: the stored key and value found for [k] *)
Definition entry {K V} (cmp : K -> K -> comparison) (k : K) (l : list (K * V)) : option (K * V) :=
  find (fun p => eqb_of cmp k (fst p)) l.

Section EntryLemmas.
  Context {K V : Type} {cmp : K -> K -> comparison}.
  Lemma entry_Some_In k (l : list (K * V)) p : entry cmp k l = Some p -> In p l /\ cmp k (fst p) = Eq.
  Proof.
    intros H. apply find_some in H as [H1 H2]. split; auto.
    unfold eqb_of in H2. destruct (cmp k (fst p)); congruence.
  Qed.
  Lemma entry_None k (l : list (K * V)) : entry cmp k l = None <-> forall p, In p l -> cmp k (fst p) <> Eq.
  Proof.
    unfold entry. induction l as [|p l IH]; simpl.
    - split; [intros _ p []|reflexivity].
    - unfold eqb_of at 1. destruct (cmp k (fst p)) eqn:E.
      + split; [discriminate|]. intros H. exfalso. apply (H p); auto.
      + rewrite IH. split; [intros H q [<-|Hq]; [congruence|auto]|intros H q Hq; apply H; auto].
      + rewrite IH. split; [intros H q [<-|Hq]; [congruence|auto]|intros H q Hq; apply H; auto].
  Qed.
  Lemma lookup_entry k (l : list (K * V)) : lookup cmp k l = option_map snd (entry cmp k l).
  Proof.
    unfold entry. induction l as [|[k' v] l IH]; simpl; [reflexivity|].
    unfold eqb_of at 1. destruct (cmp k k'); auto.
  Qed.
  Lemma entry_app k (l1 l2 : list (K * V)) :
    entry cmp k (l1 ++ l2) = match entry cmp k l1 with Some p => Some p | None => entry cmp k l2 end.
  Proof.
    unfold entry. induction l1 as [|p l1 IH]; simpl; [reflexivity|].
    destruct (eqb_of cmp k (fst p)); auto.
  Qed.
  Context (L : OrdLaws cmp).
  Lemma entry_sorted k (l : list (K * V)) p :
    keys_sorted cmp l -> In p l -> cmp k (fst p) = Eq -> entry cmp k l = Some p.
  Proof.
    intros S Hp E. destruct (entry cmp k l) as [q|] eqn:Q.
    - apply entry_Some_In in Q as [Hq Eq]. destruct p as [k1 v1], q as [k2 v2]. cbn in E, Eq.
      destruct (keys_sorted_unique L l k1 v1 k2 v2) as [-> ->]; auto.
      now rewrite <- (cmp_eq_l L _ _ k2 E).
    - exfalso. rewrite entry_None in Q. exact (Q p Hp E).
  Qed.
  Lemma entry_iff k (l : list (K * V)) p : keys_sorted cmp l ->
    (entry cmp k l = Some p <-> In p l /\ cmp k (fst p) = Eq).
  Proof.
    intros S. split; [apply entry_Some_In|]. intros [? ?]. now apply entry_sorted.
  Qed.
  Lemma entry_eq k1 k2 (l : list (K * V)) : cmp k1 k2 = Eq -> entry cmp k1 l = entry cmp k2 l.
  Proof.
    intros E. unfold entry. induction l as [|p l IH]; simpl; [reflexivity|].
    unfold eqb_of at 1 3. rewrite (cmp_eq_l L _ _ _ E). destruct (cmp k2 (fst p)); auto.
  Qed.
  (** a sorted map is determined by its entries *)
  Lemma entry_ext (l1 l2 : list (K * V)) : keys_sorted cmp l1 -> keys_sorted cmp l2 ->
    (forall k, entry cmp k l1 = entry cmp k l2) -> l1 = l2.
  Proof.
    revert l2. induction l1 as [|p l1 IH]; intros [|q l2] S1 S2 H.
    - reflexivity.
    - specialize (H (fst q)). simpl in H. unfold entry in H. simpl in H. unfold eqb_of at 1 in H.
      rewrite (cmp_refl L) in H. discriminate.
    - specialize (H (fst p)). simpl in H. unfold entry in H. simpl in H. unfold eqb_of at 1 in H.
      rewrite (cmp_refl L) in H. discriminate.
    - pose proof S1 as T1. pose proof S2 as T2. destruct p as [k1 v1], q as [k2 v2].
      apply keys_sorted_cons in T1 as [T1 H1], T2 as [T2 H2].
      assert (P1 : In (k1, v1) ((k2, v2) :: l2) /\ In (k2, v2) ((k1, v1) :: l1)).
      { split.
        - apply (entry_Some_In k1). rewrite <- H. unfold entry. simpl. unfold eqb_of at 1.
          now rewrite (cmp_refl L).
        - apply (entry_Some_In k2). rewrite H. unfold entry. simpl. unfold eqb_of at 1.
          now rewrite (cmp_refl L). }
      destruct P1 as [[E|P1] P2]; [|destruct P2 as [E|P2]].
      + injection E as -> ->. f_equal. apply IH; auto. intros k. specialize (H k).
        unfold entry in *. simpl in H. unfold eqb_of at 1 3 in H.
        destruct (cmp k k1) eqn:E; auto.
        transitivity (@None (K * V)).
        * apply entry_None. intros [k3 v3] H3 E3. cbn in E3. apply H1 in H3.
          rewrite (cmp_eq_l L _ _ k3 E) in E3. congruence.
        * symmetry. apply entry_None. intros [k3 v3] H3 E3. cbn in E3. apply H2 in H3.
          rewrite (cmp_eq_l L _ _ k3 E) in E3. congruence.
      + injection E as -> ->. apply H2 in P1. rewrite (cmp_refl L) in P1. discriminate.
      + apply H2 in P1. apply H1 in P2. apply (cmp_lt_gt L) in P1. congruence.
  Qed.
End EntryLemmas.

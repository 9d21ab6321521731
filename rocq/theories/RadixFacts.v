(** Basic facts about radix trees: keys, lookup, well-formedness, unsplit, materialisation. *)
From Verif Require Export RadixSpec MergeFacts.

Section TreeInd.
  Context {K V : Type} (P : rtree K V -> Prop).
  Hypothesis HN : forall p v cs, Forall P cs -> P (Node p v cs).
  Fixpoint rtree_ind' (t : rtree K V) : P t :=
    match t with
    | Node p v cs =>
        HN p v cs ((fix go (l : list (rtree K V)) : Forall P l :=
                      match l with
                      | [] => Forall_nil P
                      | x :: l' => Forall_cons x (rtree_ind' x) (go l')
                      end) cs)
    end.
End TreeInd.

Lemma fold_and {X} (P : X -> Prop) l : fold_right (fun c Q => P c /\ Q) True l <-> Forall P l.
Proof.
  induction l as [|x l IH]; simpl; [split; auto|].
  rewrite IH. split; intros H; [constructor; tauto|inversion H; tauto].
Qed.

Lemma size_children {K V} (t : rtree K V) x : In x (t_children t) -> t_size x < t_size t.
Proof.
  destruct t as [p v cs]. simpl. intros H. induction cs as [|y cs IH]; [destruct H|].
  simpl. destruct H as [->|H]; [lia|]. apply IH in H. lia.
Qed.

Lemma size_pos {K V} (t : rtree K V) : 0 < t_size t.
Proof. destruct t; simpl; lia. Qed.

Section Facts.
  Context {K : Type} {kcmp : K -> K -> comparison} (L : OrdLaws kcmp) (E : OrdEq kcmp).
  Notation strip := (strip kcmp).
  Notation lk := (lk kcmp).
  Notation wf := (wf kcmp).
  Notation cp := (common_prefix kcmp).

  Lemma kcmp_refl x : kcmp x x = Eq.
  Proof. now apply E. Qed.
  Lemma keqb_eq x y : keqb kcmp x y = true <-> x = y.
  Proof. unfold keqb. rewrite <- (E x y). destruct (kcmp x y); split; congruence. Qed.
  Lemma keqb_refl x : keqb kcmp x x = true.
  Proof. now apply keqb_eq. Qed.
  Lemma keqb_neq x y : keqb kcmp x y = false <-> x <> y.
  Proof. rewrite <- keqb_eq. destruct (keqb kcmp x y); split; congruence. Qed.

  (** ** strip *)
  Lemma strip_iff p k r : strip p k = Some r <-> k = p ++ r.
  Proof.
    revert k. induction p as [|x p IH]; intros k; simpl.
    - split; [now intros [= ->]|now intros ->].
    - destruct k as [|y k]; [split; discriminate|].
      destruct (kcmp x y) eqn:C.
      + apply E in C as ->. rewrite IH. split; [now intros ->|now intros [= ->]].
      + split; [discriminate|]. intros [= -> ->]. rewrite kcmp_refl in C. discriminate.
      + split; [discriminate|]. intros [= -> ->]. rewrite kcmp_refl in C. discriminate.
  Qed.
  Lemma strip_app p r : strip p (p ++ r) = Some r.
  Proof. now apply strip_iff. Qed.
  Lemma strip_self p : strip p p = Some [].
  Proof. apply strip_iff. now rewrite app_nil_r. Qed.
  Lemma strip_nil k : strip [] k = Some k.
  Proof. reflexivity. Qed.
  Lemma strip_None p k : strip p k = None <-> forall r, k <> p ++ r.
  Proof.
    destruct (strip p k) as [r|] eqn:S.
    - split; [discriminate|]. intros H. apply strip_iff in S. now apply H in S.
    - split; auto. intros _ r H. apply strip_iff in H. congruence.
  Qed.
  Lemma strip_app_l p q k : strip (p ++ q) k = match strip p k with Some k' => strip q k' | None => None end.
  Proof.
    revert k. induction p as [|x p IH]; intros k; simpl; auto.
    destruct k as [|y k]; auto. destruct (kcmp x y); auto.
  Qed.
  Lemma strip_cons x p y k : strip (x :: p) (y :: k) = if keqb kcmp x y then strip p k else None.
  Proof. simpl. unfold keqb. destruct (kcmp x y); reflexivity. Qed.
  Lemma strip_cons_nil x p : strip (x :: p) [] = None.
  Proof. reflexivity. Qed.

  (** ** common prefix: the four cases of every combination *)
  Lemma cp_refl_app p r s : cp (p ++ r) (p ++ s) = length p + cp r s.
  Proof. induction p as [|x p IH]; simpl; auto. now rewrite keqb_refl, IH. Qed.

  Inductive cp_case (p q : list K) (n : nat) : Prop :=
  | CpSame : p = q -> n = length p -> cp_case p q n
  | CpLeft : forall x r, q = p ++ x :: r -> n = length p -> cp_case p q n
  | CpRight : forall x r, p = q ++ x :: r -> n = length q -> cp_case p q n
  | CpFork : forall s x r y u, p = s ++ x :: r -> q = s ++ y :: u -> x <> y -> n = length s -> cp_case p q n.

  Lemma cp_cases p q : cp_case p q (cp p q).
  Proof.
    revert q. induction p as [|x p IH]; intros [|y q]; simpl.
    - now apply CpSame.
    - now eapply CpLeft.
    - now eapply CpRight.
    - destruct (keqb kcmp x y) eqn:C.
      + apply keqb_eq in C as ->. destruct (IH q) as [-> H|z r -> H|z r -> H|s z r w u -> -> Hn H].
        * apply CpSame; simpl; congruence.
        * eapply CpLeft; simpl; [reflexivity|congruence].
        * eapply CpRight; simpl; [reflexivity|congruence].
        * eapply (CpFork _ _ _ (y :: s)); simpl; eauto.
      + apply keqb_neq in C. eapply (CpFork _ _ _ []); simpl; eauto.
  Qed.

  Lemma app_cons_length {X} (p r : list X) x : (length p =? length (p ++ x :: r)) = false.
  Proof. apply Nat.eqb_neq. rewrite app_length. simpl. lia. Qed.
  Lemma app_cons_ltb {X} (p r : list X) x : (length p <? length (p ++ x :: r)) = true.
  Proof. apply Nat.ltb_lt. rewrite app_length. simpl. lia. Qed.

  (** ** Children *)
  Section Tree.
    Context {V : Type}.
    Notation tree := (rtree K V).

    Definition hd_of (t : tree) : option K := hd_error (t_prefix t).

    (** a list of children: non-empty prefixes, increasing heads, each well formed *)
    Record wfc (q : bool) (cs : list tree) : Prop := {
      wfc_ne : Forall (fun c => t_prefix c <> []) cs;
      wfc_st : StronglySorted (head_lt kcmp) cs;
      wfc_q : q = true -> Forall (fun c => t_is_empty c = false) cs;
      wfc_wf : Forall (wf q) cs
    }.

    Lemma wf_node q p ov (cs : list tree) :
      wf q (Node p ov cs) <->
      wfc q cs /\ (q = true -> (ov = None -> cs = [] -> p = []) /\ (ov = None -> length cs <> 1)).
    Proof.
      cbn [RadixSpec.wf]. rewrite fold_and. split.
      - intros (H1 & H2 & H3 & H4). split.
        + constructor; auto. intros Q. now apply H3.
        + intros Q. destruct (H3 Q) as (A1 & A2 & A3). auto.
      - intros [[H1 H2 H3 H4] H5]. split; [auto|]. split; [auto|]. split; auto.
        intros Q. destruct (H5 Q). auto.
    Qed.
    Lemma wf_wfc q (t : tree) : wf q t -> wfc q (t_children t).
    Proof. destruct t. rewrite wf_node. now intros [H _]. Qed.

    Lemma wfc_nil q : wfc q [].
    Proof. constructor; auto. constructor. Qed.
    Lemma wfc_cons q c cs : wfc q (c :: cs) <->
      t_prefix c <> [] /\ Forall (head_lt kcmp c) cs /\ (q = true -> t_is_empty c = false) /\
      wf q c /\ wfc q cs.
    Proof.
      split.
      - intros [H1 H2 H3 H4]. inversion H1; inversion H2; inversion H4; subst.
        repeat split; auto; intros Q; apply H3 in Q; now inversion Q.
      - intros (H1 & H2 & H3 & H4 & [H5 H6 H7 H8]). split; try constructor; auto.
    Qed.
    Lemma wfc_single q c : t_prefix c <> [] -> (q = true -> t_is_empty c = false) -> wf q c -> wfc q [c].
    Proof. intros. apply wfc_cons. repeat split; auto; constructor. Qed.
    Lemma wfc_In q cs c : wfc q cs -> In c cs -> t_prefix c <> [] /\ wf q c /\ (q = true -> t_is_empty c = false).
    Proof.
      intros [H1 H2 H3 H4] Hc. rewrite Forall_forall in H1, H4. repeat split; auto.
      intros Q. apply H3 in Q. rewrite Forall_forall in Q. auto.
    Qed.

    Lemma wf_weaken (t : tree) : wf true t -> wf false t.
    Proof.
      induction t as [p v cs IH] using rtree_ind'. rewrite !wf_node. intros [[H1 H2 H3 H4] _].
      split; [|discriminate]. constructor; auto; try discriminate.
      rewrite Forall_forall in *. intros c Hc. auto.
    Qed.
    Lemma wf_any q (t : tree) : wf q t -> wf false t.
    Proof. destruct q; auto using wf_weaken. Qed.
    Lemma wf_prefix q p p' v (cs : list tree) : wf q (Node p v cs) -> (q = true -> v = None -> cs = [] -> p' = []) ->
      wf q (Node p' v cs).
    Proof.
      rewrite !wf_node. intros [H1 H2] H3. split; auto. intros Q. split; auto. now apply H2.
    Qed.
    (** a canonical tree with a non-empty prefix is not empty *)
    Lemma wf_true_ne (t : tree) : wf true t -> t_prefix t <> [] -> t_is_empty t = false.
    Proof.
      destruct t as [p [v|] [|c cs]]; try reflexivity. rewrite wf_node. intros [_ H] Hp.
      destruct (H eq_refl) as [H1 _]. simpl in Hp. now rewrite H1 in Hp.
    Qed.
    Lemma wf_shorten q p p' v (cs : list tree) : wf q (Node p v cs) -> p <> [] -> wf q (Node p' v cs).
    Proof.
      intros H Hp. eapply wf_prefix; eauto. intros -> -> ->.
      apply wf_true_ne in H; auto. discriminate.
    Qed.

    (** the child whose prefix starts with [c] *)
    Definition heads_with (c : K) (t : tree) : bool :=
      match t_prefix t with h :: _ => keqb kcmp h c | [] => false end.
    Definition child (c : K) (cs : list tree) : option tree := List.find (heads_with c) cs.

    Definition lkc (cs : list tree) (k : list K) : option V :=
      fold_right (fun c acc => match lk c k with Some v => Some v | None => acc end) None cs.
    Definition lko (o : option tree) (k : list K) : option V :=
      match o with Some t => lk t k | None => None end.

    Lemma lk_node p ov (cs : list tree) k :
      lk (Node p ov cs) k = match strip p k with
                            | None => None
                            | Some [] => ov
                            | Some (c :: k') => lkc cs (c :: k')
                            end.
    Proof. cbn [RadixSpec.lk]. destruct (strip p k) as [[|]|]; reflexivity. Qed.

    Lemma heads_with_eq c t : heads_with c t = true <-> hd_of t = Some c.
    Proof.
      unfold heads_with, hd_of. destruct (t_prefix t) as [|h p]; simpl; [split; discriminate|].
      rewrite keqb_eq. split; congruence.
    Qed.
    Lemma lk_other c k (t : tree) : t_prefix t <> [] -> heads_with c t = false -> lk t (c :: k) = None.
    Proof.
      destruct t as [p v cs]. unfold heads_with. simpl t_prefix. destruct p as [|h p]; [congruence|].
      intros _ H. rewrite lk_node, strip_cons, H. reflexivity.
    Qed.
    Lemma lk_nil (t : tree) : t_prefix t <> [] -> lk t [] = None.
    Proof. destruct t as [[|h p] v cs]; [simpl; congruence|reflexivity]. Qed.
    Lemma lkc_nil cs : Forall (fun c : tree => t_prefix c <> []) cs -> lkc cs [] = None.
    Proof.
      induction 1 as [|c cs Hc H IH]; auto. cbn [lkc fold_right]. rewrite lk_nil by auto. exact IH.
    Qed.
    Lemma lkc_cons t cs k : lkc (t :: cs) k = match lk t k with Some v => Some v | None => lkc cs k end.
    Proof. reflexivity. Qed.

    Lemma child_None c cs : child c cs = None <-> forall t, In t cs -> hd_of t <> Some c.
    Proof.
      unfold child. split.
      - intros H t Ht. apply (find_none _ _ H) in Ht. intros Q. apply heads_with_eq in Q. congruence.
      - intros H. induction cs as [|t cs IH]; auto. simpl.
        destruct (heads_with c t) eqn:Q.
        + apply heads_with_eq in Q. exfalso. apply (H t); simpl; auto.
        + apply IH. intros; apply H; simpl; auto.
    Qed.
    Lemma child_Some_In c cs t : child c cs = Some t -> In t cs /\ hd_of t = Some c.
    Proof. intros H. apply find_some in H as [H1 H2]. apply heads_with_eq in H2. auto. Qed.

    Lemma head_lt_neq (a b : tree) : head_lt kcmp a b -> hd_of a <> hd_of b.
    Proof.
      unfold head_lt, hd_of. destruct (t_prefix a) as [|x ?], (t_prefix b) as [|y ?]; simpl; try tauto.
      intros H [= ->]. rewrite kcmp_refl in H. discriminate.
    Qed.
    Lemma child_unique q c cs t : wfc q cs -> In t cs -> hd_of t = Some c -> child c cs = Some t.
    Proof.
      intros W. apply wfc_st in W. induction W as [|u cs W IH Hu]; [intros []|].
      intros [->|Ht] Hh.
      - unfold child. simpl. apply heads_with_eq in Hh. now rewrite Hh.
      - unfold child. simpl. destruct (heads_with c u) eqn:Q.
        + apply heads_with_eq in Q. rewrite Forall_forall in Hu. apply Hu, head_lt_neq in Ht. congruence.
        + apply IH; auto.
    Qed.

    (** in a list of children, at most the child with the right head is consulted *)
    Lemma lkc_child q cs c k : wfc q cs -> lkc cs (c :: k) = lko (child c cs) (c :: k).
    Proof.
      induction cs as [|t cs IH]; intros W; [reflexivity|].
      apply wfc_cons in W as (Hp & Hl & _ & _ & W). rewrite lkc_cons. unfold child. simpl.
      destruct (heads_with c t) eqn:Q.
      - simpl. destruct (lk t (c :: k)) eqn:Ql; auto.
        rewrite IH by auto. replace (child c cs) with (@None tree); auto. symmetry.
        apply child_None. intros u Hu. rewrite Forall_forall in Hl. apply Hl, head_lt_neq in Hu.
        apply heads_with_eq in Q. congruence.
      - rewrite lk_other by auto. now apply IH.
    Qed.

    Lemma lkc_In q cs c k v : wfc q cs -> (lkc cs (c :: k) = Some v <-> exists t, In t cs /\ lk t (c :: k) = Some v).
    Proof.
      intros W. rewrite (lkc_child q) by auto. split.
      - destruct (child c cs) as [t|] eqn:C; [|discriminate]. apply child_Some_In in C as [C _]. eauto.
      - intros (t & Ht & Hl). erewrite child_unique; eauto.
        destruct (wfc_In _ _ _ W Ht) as (Hp & _ & _).
        destruct (heads_with c t) eqn:Q; [now apply heads_with_eq|].
        rewrite lk_other in Hl by auto. discriminate.
    Qed.

    (** ** The mapping is what the tree holds *)
    Theorem lk_has (t : tree) : wf false t -> forall k v, lk t k = Some v <-> has t k v.
    Proof.
      induction t as [p ov cs IH] using rtree_ind'. intros W k v.
      pose proof (wf_wfc _ _ W) as C. cbn [t_children] in C. rewrite Forall_forall in IH.
      rewrite lk_node. split.
      - destruct (strip p k) as [r|] eqn:S; [|discriminate]. apply strip_iff in S as ->.
        destruct r as [|c r].
        + intros ->. rewrite app_nil_r. constructor.
        + intros H. apply (lkc_In false) in H as (t & Ht & H); auto.
          apply has_child with (c := t); auto. apply IH; auto. now apply (wfc_In _ _ _ C).
      - intros H. inversion H; subst.
        + now rewrite strip_self.
        + rewrite strip_app. assert (Hl : lk c k0 = Some v).
          { apply IH; auto. now apply (wfc_In _ _ _ C). }
          destruct k0 as [|x k0].
          * rewrite lk_nil in Hl; [discriminate|]. now apply (wfc_In _ _ _ C).
          * apply (lkc_In false); eauto.
    Qed.

    (** ** Materialisation is the identity up to the prefix *)
    Lemma mat_short_ok q (t : tree) n : wf q t -> n < length (t_prefix t) ->
      mat_short t n = Ok (Node (skipn n (t_prefix t)) (t_value t) (t_children t)).
    Proof.
      revert n. induction t as [p v cs IH] using rtree_ind'. intros n W Hn.
      cbn [mat_short t_prefix t_value t_children] in *.
      apply Nat.ltb_lt in Hn. rewrite Hn. apply wf_wfc in W. cbn [t_children] in W.
      enough (H : (fix go (l : list tree) : res (list tree) :=
                  match l with
                  | [] => Ok []
                  | x :: l' => rbind (mat_short x 0) (fun x' => rbind (go l') (fun l'' => Ok (x' :: l'')))
                  end) cs = Ok cs) by (rewrite H; reflexivity).
      clear Hn. induction cs as [|c cs IHc]; auto.
      inversion IH as [|? ? IHx IHl]; subst. apply wfc_cons in W as (Hp & Hl & Hq & Hw & W).
      rewrite IHx; auto.
      2:{ destruct (t_prefix c); [congruence|simpl; lia]. }
      cbn [rbind]. rewrite IHc by auto. destruct c; reflexivity.
    Qed.
    Lemma mat_all_ok q cs : wfc q cs -> mat_all cs = Ok cs.
    Proof.
      induction cs as [|c cs IH]; auto. intros W. apply wfc_cons in W as (Hp & Hl & Hq & Hw & W).
      cbn [mat_all]. rewrite (mat_short_ok q); auto.
      2:{ destruct (t_prefix c); [congruence|simpl; lia]. }
      rewrite IH by auto. destruct c; reflexivity.
    Qed.
    Lemma mat_conv_ok q (t : tree) : wf q t -> t_prefix t <> [] -> mat_conv t = Some t.
    Proof.
      intros W Hp. unfold mat_conv. rewrite (mat_short_ok q); auto.
      - destruct t; reflexivity.
      - destruct (t_prefix t); [congruence|simpl; lia].
    Qed.

    (** ** unsplit *)
    Lemma lk_empty (t : tree) k : t_is_empty t = true -> lk t k = None.
    Proof.
      destruct t as [p [v|] [|c cs]]; try discriminate. intros _. rewrite lk_node.
      destruct (strip p k) as [[|]|]; reflexivity.
    Qed.
    Lemma lkc_filter cs k : lkc (filter (fun x : tree => negb (t_is_empty x)) cs) k = lkc cs k.
    Proof.
      induction cs as [|c cs IH]; auto. simpl filter. rewrite (lkc_cons c).
      destruct (t_is_empty c) eqn:Q; simpl negb; cbv iota.
      - now rewrite lk_empty, IH.
      - rewrite lkc_cons. now rewrite IH.
    Qed.
    Lemma StronglySorted_filter {X} (R : X -> X -> Prop) f l : StronglySorted R l -> StronglySorted R (filter f l).
    Proof.
      induction 1 as [|x l H IH Hx]; simpl; [constructor|]. destruct (f x); auto. constructor; auto.
      rewrite Forall_forall in *. intros y Hy. apply filter_In in Hy as [Hy _]. auto.
    Qed.
    Lemma wfc_filter q cs : wfc q cs -> wfc q (filter (fun x : tree => negb (t_is_empty x)) cs).
    Proof.
      intros [H1 H2 H3 H4]. rewrite Forall_forall in *. constructor; try rewrite Forall_forall.
      - intros x Hx. apply filter_In in Hx as [Hx _]. auto.
      - now apply StronglySorted_filter.
      - intros _ x Hx. apply filter_In in Hx as [_ Hx]. now destruct (t_is_empty x).
      - intros x Hx. apply filter_In in Hx as [Hx _]. auto.
    Qed.
    Lemma prepend_lk (t : tree) p k : lk (rt_prepend t p) k = match strip p k with Some r => lk t r | None => None end.
    Proof.
      destruct t as [q v cs]. unfold rt_prepend. destruct p as [|x p]; [reflexivity|].
      destruct (t_is_empty (Node q v cs)) eqn:Q.
      - rewrite !lk_empty by auto. destruct (strip (x :: p) k); auto. now rewrite lk_empty.
      - rewrite lk_node, strip_app_l. destruct (strip (x :: p) k) as [r|]; auto. now rewrite lk_node.
    Qed.
    Lemma prepend_wf q (t : tree) p : wf q t -> wf q (rt_prepend t p).
    Proof.
      destruct t as [r v cs]. intros W. unfold rt_prepend. destruct p as [|x p]; auto.
      destruct (t_is_empty (Node r v cs)) eqn:Q; auto.
      eapply wf_prefix; eauto. intros _ -> ->. discriminate.
    Qed.
    Lemma prepend_empty (t : tree) p : t_is_empty (rt_prepend t p) = t_is_empty t.
    Proof.
      destruct t as [r v cs]. unfold rt_prepend. destruct p; auto.
      destruct (t_is_empty (Node r v cs)) eqn:Q; auto.
    Qed.

    (** the body of unsplit after the first step *)
    Lemma unsplit_cases p v cs :
      let cs' := filter (fun x : tree => negb (t_is_empty x)) cs in
      (exists c, v = None /\ cs' = [c] /\ t_unsplit (Node p v cs) = rt_prepend c p) \/
      (v = None /\ cs' = [] /\ t_unsplit (Node p v cs) = Node [] None []) \/
      ((v = None -> cs' <> [] /\ length cs' <> 1) /\ t_unsplit (Node p v cs) = Node p v cs').
    Proof.
      cbv zeta. unfold t_unsplit.
      set (cs' := filter (fun x : tree => negb (t_is_empty x)) cs).
      assert (HE : forall c, In c cs' -> t_is_empty c = false).
      { intros c Hc. apply filter_In in Hc as [_ Hc]. now destruct (t_is_empty c). }
      destruct v as [v|].
      - right. right. split; [discriminate|]. reflexivity.
      - destruct cs' as [|c [|d cs'']].
        + right. left. auto.
        + left. exists c. repeat split; auto.
          assert (Q : t_is_empty (rt_prepend c p) = false) by (rewrite prepend_empty; apply HE; now left).
          rewrite Q. now destruct (rt_prepend c p).
        + right. right. split; [|reflexivity]. intros _. split; [discriminate|simpl; lia].
    Qed.

    Lemma unsplit_wf q p v cs : wfc q cs -> wf q (t_unsplit (Node p v cs)).
    Proof.
      intros W. pose proof (wfc_filter _ _ W) as W'.
      destruct (unsplit_cases p v cs) as [(c & -> & E1 & ->)|[(-> & E1 & ->)|(H & ->)]].
      - apply prepend_wf. rewrite E1 in W'. now apply wfc_cons in W'.
      - rewrite wf_node. split; [apply wfc_nil|]. split; auto; discriminate.
      - rewrite wf_node. split; auto. intros _. split; intros Hv; apply H in Hv; tauto.
    Qed.
    Lemma unsplit_lk q p v cs k : wfc q cs -> lk (t_unsplit (Node p v cs)) k = lk (Node p v cs) k.
    Proof.
      intros W. pose proof (wfc_filter _ _ W) as W'.
      destruct (unsplit_cases p v cs) as [(c & -> & E1 & ->)|[(-> & E1 & ->)|(H & ->)]].
      - rewrite prepend_lk, lk_node. destruct (strip p k) as [[|x r]|]; auto.
        + rewrite lk_nil; auto. rewrite E1 in W'. now apply wfc_cons in W'.
        + rewrite <- lkc_filter, E1. cbn [lkc fold_right]. now destruct (lk c (x :: r)).
      - rewrite lk_empty by reflexivity. rewrite lk_node. destruct (strip p k) as [[|x r]|]; auto.
        now rewrite <- lkc_filter, E1.
      - rewrite !lk_node. destruct (strip p k) as [[|x r]|]; auto. apply lkc_filter.
    Qed.
    Lemma unsplit_hd p v cs h : hd_error p = Some h -> t_is_empty (t_unsplit (Node p v cs)) = false ->
      hd_of (t_unsplit (Node p v cs)) = Some h.
    Proof.
      intros Hp He. destruct p as [|h' p]; [discriminate|]. injection Hp as ->.
      destruct (unsplit_cases (h :: p) v cs) as [(c & -> & E1 & Q)|[(-> & E1 & Q)|(H & Q)]]; rewrite Q in *.
      - rewrite prepend_empty in He. unfold rt_prepend. destruct c as [r w ds]. rewrite He. reflexivity.
      - discriminate.
      - reflexivity.
    Qed.
  End Tree.
End Facts.

(** Every combination of radix trees is pointwise in an observation of the right operand. *)
From Verif Require Export RadixMerge.

Section Comb.
  Context {K : Type} {kcmp : K -> K -> comparison} (L : OrdLaws kcmp) (E : OrdEq kcmp).
  Context (strat : nat -> nat -> bool).
  Notation strip := (strip kcmp).
  Notation lk := (lk kcmp).
  Notation wf := (wf kcmp).
  Notation wfc := (wfc (kcmp := kcmp)).
  Notation lkc := (lkc (kcmp := kcmp)).
  Notation child := (child (kcmp := kcmp)).

  (** ** Observations of the right operand *)
  Section Observe.
    Context {W : Type}.
    (** the node at exactly the path [k], if there is one: its optional value *)
    Fixpoint nd (t : rtree K W) (k : list K) : option (option W) :=
      let 'Node p ow cs := t in
      match strip p k with
      | None => None
      | Some [] => Some ow
      | Some r => fold_right (fun c acc => match nd c r with Some v => Some v | None => acc end) None cs
      end.
    (** some prefix of [k] is an accepted key *)
    Fixpoint pfx (f : W -> bool) (t : rtree K W) (k : list K) : bool :=
      let 'Node p ow cs := t in
      match strip p k with
      | None => false
      | Some r => hit f ow || existsb (fun c => pfx f c r) cs
      end.

    Section Consult.
      Context {X : Type} (d : X) (ob : rtree K W -> list K -> X) (join : X -> X -> X).
      Hypothesis join_d_l : forall x, join d x = x.
      Hypothesis join_d_r : forall x, join x d = x.
      Hypothesis ob_other : forall t c k, t_prefix t <> [] -> heads_with (kcmp := kcmp) c t = false -> ob t (c :: k) = d.
      Lemma consult q cs c k : wfc q cs ->
        fold_right (fun t acc => join (ob t (c :: k)) acc) d cs = obc (kcmp := kcmp) d ob cs (c :: k).
      Proof.
        unfold obc. induction cs as [|t cs IH]; intros Wc; [reflexivity|].
        apply wfc_cons in Wc as (Hp & Hl & _ & _ & Wc). simpl fold_right. unfold RadixFacts.child. simpl find.
        destruct (heads_with c t) eqn:Q.
        - rewrite IH by auto. replace (child c cs) with (@None (rtree K W)); [apply join_d_r|]. symmetry.
          apply (child_None E). intros u Hu. rewrite Forall_forall in Hl. apply Hl, (head_lt_neq E) in Hu.
          apply (heads_with_eq E) in Q. congruence.
        - rewrite ob_other, join_d_l by auto. now apply IH.
      Qed.
    End Consult.

    Lemma lk_strip p (w : option W) cs k : lk (Node p w cs) k =
      match strip p k with None => None | Some r => lk (Node [] w cs) r end.
    Proof. cbn [RadixSpec.lk]. destruct (strip p k) as [[|]|]; reflexivity. Qed.
    Lemma nd_strip p (w : option W) cs k : nd (Node p w cs) k =
      match strip p k with None => None | Some r => nd (Node [] w cs) r end.
    Proof. cbn [nd]. destruct (strip p k) as [[|]|]; auto. Qed.
    Lemma pfx_strip f p (w : option W) cs k : pfx f (Node p w cs) k =
      match strip p k with None => false | Some r => pfx f (Node [] w cs) r end.
    Proof. cbn [pfx]. destruct (strip p k) as [[|]|]; auto. Qed.

    Lemma lk_obc q (w : option W) cs c k : wfc q cs ->
      lk (Node [] w cs) (c :: k) = obc (kcmp := kcmp) None lk cs (c :: k).
    Proof. intros Wc. rewrite lk_node. cbn [RadixSpec.strip]. rewrite (lkc_child E q) by auto. reflexivity. Qed.
    Lemma nd_other (t : rtree K W) c k : t_prefix t <> [] -> heads_with (kcmp := kcmp) c t = false -> nd t (c :: k) = None.
    Proof.
      destruct t as [[|h p] v cs]; [simpl; congruence|]. unfold heads_with. simpl t_prefix. intros _ H.
      rewrite nd_strip, (strip_cons (kcmp := kcmp)), H. reflexivity.
    Qed.
    Lemma nd_obc q (w : option W) cs c k : wfc q cs ->
      nd (Node [] w cs) (c :: k) = obc (kcmp := kcmp) None nd cs (c :: k).
    Proof.
      intros Wc. cbn [nd RadixSpec.strip].
      apply (consult None nd (fun x y => match x with Some v => Some v | None => y end)) with (q := q); auto.
      - now intros [].
      - apply nd_other.
    Qed.
    Lemma pfx_other f (t : rtree K W) c k : t_prefix t <> [] -> heads_with (kcmp := kcmp) c t = false -> pfx f t (c :: k) = false.
    Proof.
      destruct t as [[|h p] v cs]; [simpl; congruence|]. unfold heads_with. simpl t_prefix. intros _ H.
      rewrite pfx_strip, (strip_cons (kcmp := kcmp)), H. reflexivity.
    Qed.
    Lemma existsb_fold {Y} (h : Y -> bool) l : existsb h l = fold_right (fun t acc => h t || acc) false l.
    Proof. induction l; simpl; congruence. Qed.
    Lemma pfx_obc q f (w : option W) cs c k : wfc q cs ->
      pfx f (Node [] w cs) (c :: k) = hit f w || obc (kcmp := kcmp) false (pfx f) cs (c :: k).
    Proof.
      intros Wc. cbn [pfx RadixSpec.strip]. f_equal. rewrite existsb_fold.
      apply (consult false (pfx f) orb) with (q := q); auto.
      - now intros [].
      - apply pfx_other.
    Qed.
    Lemma pfx_nil q f (w : option W) cs : wfc q cs -> pfx f (Node [] w cs) [] = hit f w.
    Proof.
      intros Wc. cbn [pfx RadixSpec.strip]. replace (existsb (fun c => pfx f c []) cs) with false; [apply orb_false_r|].
      symmetry. apply not_true_iff_false. intros H. apply existsb_exists in H as (t & Ht & H).
      apply (wfc_In _ _ _ Wc) in Ht as (Hp & _ & _). destruct t as [[|h p] v ds]; [simpl in Hp; congruence|].
      discriminate.
    Qed.
    Lemma pfx_hit f (w : option W) cs k : hit f w = true -> pfx f (Node [] w cs) k = true.
    Proof. intros H. cbn [pfx RadixSpec.strip]. now rewrite H. Qed.

    Lemma pfx_covered f (t : rtree K W) : forall k, pfx f t k = true <-> covered f t k.
    Proof.
      induction t as [p ow cs IH] using rtree_ind'. intros k. rewrite Forall_forall in IH.
      cbn [pfx]. split.
      - destruct (strip p k) as [r|] eqn:S; [|discriminate]. apply (strip_iff E) in S as ->.
        rewrite orb_true_iff. intros [H|H].
        + destruct ow as [w|]; [|discriminate]. exists p, r, w. repeat split; auto. constructor.
        + apply existsb_exists in H as (c & Hc & H). apply IH in H as (k1 & k2 & w & -> & H1 & H2); auto.
          exists (p ++ k1), k2, w. rewrite app_assoc. repeat split; auto. econstructor; eauto.
      - intros (k1 & k2 & w & -> & H1 & H2). inversion H1; subst.
        + rewrite (strip_app E). simpl. now rewrite H2.
        + rewrite <- app_assoc, (strip_app E). apply orb_true_iff. right. apply existsb_exists.
          exists c. split; auto. apply IH; auto. exists k, k2, w. auto.
    Qed.
  End Observe.

  (** ** From the node computed by the code to its meaning *)
  Section Node.
    Context {V W X : Type} (d : X) (ob : rtree K W -> list K -> X) (g : option V -> X -> option V).
    Hypothesis ob_strip : forall p w cs k, ob (Node p w cs) k =
      match strip p k with None => d | Some r => ob (Node [] w cs) r end.
    Hypothesis g0 : g None d = None.
    Context (q : bool).

    Lemma obc_single t c k : t_prefix t <> [] -> obc (kcmp := kcmp) d ob [t] (c :: k) = ob t (c :: k).
    Proof.
      unfold obc, RadixFacts.child. simpl. intros Hp. destruct (heads_with c t) eqn:Q; auto.
      destruct t as [[|h p] w cs]; [simpl in Hp; congruence|]. unfold heads_with in Q. simpl t_prefix in Q.
      now rewrite ob_strip, (strip_cons (kcmp := kcmp)), Q.
    Qed.
    Lemma ob_nil t : t_prefix t <> [] -> ob t [] = d.
    Proof. destruct t as [[|h p] w cs]; [simpl; congruence|]. intros _. now rewrite ob_strip. Qed.
    Lemma lkc_single (t : rtree K V) k : lkc [t] k = lk t k.
    Proof. cbn. now destruct (lk t k). Qed.

    Lemma same_lk p v v' (ca l : list (rtree K V)) w cb :
      wfc q l -> v' = g v (ob (Node [] w cb) []) ->
      (forall c k, lkc l (c :: k) = g (lkc ca (c :: k)) (ob (Node [] w cb) (c :: k))) ->
      forall k, lk (t_unsplit (Node p v' l)) k = g (lk (Node p v ca) k) (ob (Node p w cb) k).
    Proof.
      intros Wl Hv Hl k. rewrite (unsplit_lk q), !lk_node by auto.
      rewrite ob_strip. destruct (strip p k) as [[|c r]|]; auto.
    Qed.
    Lemma left_lk p v v' (ca l : list (rtree K V)) w cb x r :
      wfc q l -> v' = g v d ->
      (forall c k, lkc l (c :: k) = g (lkc ca (c :: k)) (obc (kcmp := kcmp) d ob [Node (x :: r) w cb] (c :: k))) ->
      forall k, lk (t_unsplit (Node p v' l)) k = g (lk (Node p v ca) k) (ob (Node (p ++ x :: r) w cb) k).
    Proof.
      intros Wl Hv Hl k. rewrite (unsplit_lk q), !lk_node by auto.
      rewrite ob_strip, strip_app_l. destruct (strip p k) as [[|c s]|] eqn:S; auto.
      rewrite Hl, obc_single by (simpl; congruence). now rewrite (ob_strip (x :: r)).
    Qed.
    Lemma right_lk p v v' (ca l : list (rtree K V)) w cb x r :
      wfc q l -> v' = g None (ob (Node [] w cb) []) ->
      (forall c k, lkc l (c :: k) = g (lkc [Node (x :: r) v ca] (c :: k)) (ob (Node [] w cb) (c :: k))) ->
      forall k, lk (t_unsplit (Node p v' l)) k = g (lk (Node (p ++ x :: r) v ca) k) (ob (Node p w cb) k).
    Proof.
      intros Wl Hv Hl k. rewrite (unsplit_lk q), (lk_node p) by auto.
      rewrite (lk_strip (p ++ x :: r)), ob_strip, strip_app_l. destruct (strip p k) as [[|c s]|] eqn:S; auto.
      rewrite Hl, lkc_single. now rewrite (lk_strip (x :: r)).
    Qed.
    Lemma fork_strip s x r y u k : x <> y -> strip (s ++ x :: r) k = None \/ strip (s ++ y :: u) k = None.
    Proof.
      intros H. rewrite !strip_app_l. destruct (strip s k) as [[|c z]|]; auto.
      rewrite !strip_cons. destruct (keqb kcmp x c) eqn:Q1; auto. destruct (keqb kcmp y c) eqn:Q2; auto.
      apply (keqb_eq E) in Q1, Q2. congruence.
    Qed.

    (** the specification of a combination *)
    Definition spec (qb : bool) (op : rtree K V -> rtree K W -> res (rtree K V)) a b : Prop :=
      exists t, op a b = Ok t /\ wf q t /\
        (forall h, hd_of a = Some h -> hd_of b = Some h -> t_is_empty t = false -> hd_of t = Some h) /\
        forall k, lk t k = g (lk a k) (ob b k).

    Lemma spec_children (qb : bool) op (ca : list (rtree K V)) (cb : list (rtree K W)) :
      wfc q ca -> wfc qb cb ->
      (forall x y, In x ca -> In y cb -> wf q x -> wf qb y -> spec qb op x y) ->
      forall x y, In x ca -> In y cb -> hd_of x = hd_of y ->
      exists t, op x y = Ok t /\ wf q t /\ (t_is_empty t = false -> hd_of t = hd_of x) /\
                forall k, lk t k = g (lk x k) (ob y k).
    Proof.
      intros Wa Wb H x y Hx Hy Q. destruct (wfc_In _ _ _ Wa Hx) as (Hpx & Wx & _).
      destruct (wfc_In _ _ _ Wb Hy) as (Hpy & Wy & _).
      destruct (H x y Hx Hy Wx Wy) as (t & R & Wt & Hh & Hl). exists t. repeat split; auto.
      intros He. destruct (ne_hd x Hpx) as [h Hhx]. rewrite Hhx. apply Hh; congruence.
    Qed.
  End Node.

  Lemma hd_common (p r u : list K) x y h : x <> y ->
    hd_error (p ++ x :: r) = Some h -> hd_error (p ++ y :: u) = Some h -> hd_error p = Some h.
  Proof. destruct p; simpl; auto. congruence. Qed.

  (** ** One level of a combination, whatever merges the children *)
  Section Step.
    Context {V W X : Type} (d : X) (ob : rtree K W -> list K -> X) (g : option V -> X -> option V).
    Hypothesis ob_strip : forall p w cs k, ob (Node p w cs) k =
      match strip p k with None => d | Some r => ob (Node [] w cs) r end.
    Hypothesis g0 : g None d = None.
    Context (q qb : bool) (op : rtree K V -> rtree K W -> res (rtree K V)).
    Context (M : list (rtree K V) -> list (rtree K W) -> res (list (rtree K V))).
    Hypothesis HM : forall ca cb, wfc q ca -> wfc qb cb ->
      (forall x y, In x ca -> In y cb -> hd_of x = hd_of y ->
         exists t, op x y = Ok t /\ wf q t /\ (t_is_empty t = false -> hd_of t = hd_of x) /\
                   forall k, lk t k = g (lk x k) (ob y k)) ->
      exists l, M ca cb = Ok l /\ wfc q l /\
        forall c k, lkc l (c :: k) = g (lkc ca (c :: k)) (obc (kcmp := kcmp) d ob cb (c :: k)).

    (** the result of a level, before unsplit *)
    Definition result (r : res (rtree K V)) (a : rtree K V) (b : rtree K W) : Prop :=
      exists t, rbind r (fun t => Ok (t_unsplit t)) = Ok t /\ wf q t /\
        (forall h, hd_of a = Some h -> hd_of b = Some h -> t_is_empty t = false -> hd_of t = Some h) /\
        forall k, lk t k = g (lk a k) (ob b k).

    Definition below (a : rtree K V) (b : rtree K W) : Prop :=
      forall x y, t_size x + t_size y < t_size a + t_size b -> wf q x -> wf qb y -> spec ob g q qb op x y.

    Lemma step_same p v v' ca w cb :
      wf q (Node p v ca) -> wf qb (Node p w cb) -> below (Node p v ca) (Node p w cb) ->
      v' = g v (ob (Node [] w cb) []) ->
      (forall c k, ob (Node [] w cb) (c :: k) = obc (kcmp := kcmp) d ob cb (c :: k)) ->
      result (rbind (M ca cb) (fun c => Ok (Node p v' c))) (Node p v ca) (Node p w cb).
    Proof.
      intros Wa Wb IH Hv Ho. pose proof (wf_wfc _ _ Wa) as Ca. pose proof (wf_wfc _ _ Wb) as Cb.
      cbn [t_children] in Ca, Cb.
      destruct (HM ca cb Ca Cb) as (l & Q & Wl & Hl).
      { apply (spec_children ob g q qb); auto. intros x y Hx Hy. apply IH.
        pose proof (size_children (Node p v ca) x Hx). pose proof (size_children (Node p w cb) y Hy). lia. }
      exists (t_unsplit (Node p v' l)). rewrite Q. cbn [rbind]. split; [reflexivity|].
      split; [now apply unsplit_wf|]. split.
      - intros h H1 _ He. now apply unsplit_hd.
      - apply (same_lk d ob g ob_strip g0 q); auto. intros c k. now rewrite Hl, Ho.
    Qed.

    Lemma step_left p v v' ca w cb x r :
      wf q (Node p v ca) -> wf qb (Node (p ++ x :: r) w cb) -> below (Node p v ca) (Node (p ++ x :: r) w cb) ->
      v' = g v d ->
      result (rbind (M ca [Node (x :: r) w cb]) (fun c => Ok (Node p v' c))) (Node p v ca) (Node (p ++ x :: r) w cb).
    Proof.
      intros Wa Wb IH Hv. pose proof (wf_wfc _ _ Wa) as Ca. cbn [t_children] in Ca.
      assert (Wb' : wf qb (Node (x :: r) w cb)) by (eapply wf_shorten; [exact Wb|destruct p; discriminate]).
      assert (Cb : wfc qb [Node (x :: r) w cb]).
      { apply wfc_single; auto; [discriminate|]. intros ->. apply wf_true_ne in Wb; auto.
        destruct p; discriminate. }
      destruct (HM ca _ Ca Cb) as (l & Q & Wl & Hl).
      { apply (spec_children ob g q qb); auto. intros u y Hu [<-|[]]. apply IH.
        pose proof (size_children (Node p v ca) u Hu). cbn [t_size] in *. lia. }
      exists (t_unsplit (Node p v' l)). rewrite Q. cbn [rbind]. split; [reflexivity|].
      split; [now apply unsplit_wf|]. split.
      - intros h H1 _ He. now apply unsplit_hd.
      - apply (left_lk d ob g ob_strip g0 q); auto.
    Qed.

    Lemma step_right p v v' ca w cb x r :
      wf q (Node (p ++ x :: r) v ca) -> wf qb (Node p w cb) -> below (Node (p ++ x :: r) v ca) (Node p w cb) ->
      v' = g None (ob (Node [] w cb) []) ->
      (forall c k, ob (Node [] w cb) (c :: k) = obc (kcmp := kcmp) d ob cb (c :: k)) ->
      result (rbind (M [Node (x :: r) v ca] cb) (fun c => Ok (Node p v' c))) (Node (p ++ x :: r) v ca) (Node p w cb).
    Proof.
      intros Wa Wb IH Hv Ho. pose proof (wf_wfc _ _ Wb) as Cb. cbn [t_children] in Cb.
      assert (Wa' : wf q (Node (x :: r) v ca)) by (eapply wf_shorten; [exact Wa|destruct p; discriminate]).
      assert (Ca : wfc q [Node (x :: r) v ca]).
      { apply wfc_single; auto; [discriminate|]. intros ->. apply wf_true_ne in Wa; auto.
        destruct p; discriminate. }
      destruct (HM _ cb Ca Cb) as (l & Q & Wl & Hl).
      { apply (spec_children ob g q qb); auto. intros u y [<-|[]] Hy. apply IH.
        pose proof (size_children (Node p w cb) y Hy). cbn [t_size] in *. lia. }
      exists (t_unsplit (Node p v' l)). rewrite Q. cbn [rbind]. split; [reflexivity|].
      split; [now apply unsplit_wf|]. split.
      - intros h _ H1 He. now apply unsplit_hd.
      - apply (right_lk d ob g ob_strip g0 q); auto. intros c k. now rewrite Hl, Ho.
    Qed.

    (** nothing is left *)
    Lemma step_clear p a b : (forall k, g (lk a k) (ob b k) = None) -> result (Ok (Node p None [])) a b.
    Proof.
      intros H. exists (Node [] None []). cbn [rbind]. split; [reflexivity|].
      split; [apply wf_node; split; [apply wfc_nil|split; auto; discriminate]|]. split; [discriminate|].
      intros k. rewrite H. now rewrite lk_empty.
    Qed.
    (** nothing is changed *)
    Lemma step_keep p v ca b : wf q (Node p v ca) -> (forall k, g (lk (Node p v ca) k) (ob b k) = lk (Node p v ca) k) ->
      result (Ok (Node p v ca)) (Node p v ca) b.
    Proof.
      intros Wa H. pose proof (wf_wfc _ _ Wa) as Ca. cbn [t_children] in Ca.
      exists (t_unsplit (Node p v ca)). cbn [rbind]. split; [reflexivity|].
      split; [now apply unsplit_wf|]. split.
      - intros h H1 _ He. now apply unsplit_hd.
      - intros k. rewrite H. now apply (unsplit_lk q).
    Qed.
    (** the two trees do not overlap: both are kept, side by side *)
    Lemma step_fork s x r y u v ca w cb (b' : rtree K V) l :
      x <> y -> wf q (Node (s ++ x :: r) v ca) -> wf qb (Node (s ++ y :: u) w cb) ->
      b' = Node (y :: u) (t_value b') (t_children b') -> wf q b' -> (q = true -> t_is_empty b' = false) ->
      (forall k, lk b' k = g None (ob (Node (y :: u) w cb) k)) ->
      (forall v, g v d = v) ->
      sort_heads kcmp [Node (x :: r) v ca; b'] = Ok l ->
      result (Ok (Node s None l)) (Node (s ++ x :: r) v ca) (Node (s ++ y :: u) w cb).
    Proof.
      intros Hxy Wa Wb Eb Wb' Hq Hlb Hgd Hs.
      assert (Wa' : wf q (Node (x :: r) v ca)) by (eapply wf_shorten; [exact Wa|destruct s; discriminate]).
      assert (Hqa : q = true -> t_is_empty (Node (x :: r) v ca) = false).
      { intros ->. apply wf_true_ne in Wa; auto. destruct s; discriminate. }
      set (a' := Node (x :: r) v ca) in *.
      assert (Pa : t_prefix a' = x :: r) by reflexivity.
      assert (Pb : t_prefix b' = y :: u) by (rewrite Eb; reflexivity).
      assert (Wl : wfc q l /\ forall k, lkc l k = match lk a' k with Some z => Some z | None => lk b' k end).
      { unfold sort_heads in Hs. cbn [length Nat.ltb Nat.leb orb forallb] in Hs.
        unfold has_head in Hs. rewrite Pa, Pb in Hs. cbn [andb] in Hs. injection Hs as <-.
        unfold sort_by. cbn [fold_right sort_insert]. unfold head_ord, head_cmp. rewrite Pa, Pb.
        assert (N : kcmp x y <> Eq) by (intros Q; apply E in Q; auto).
        destruct (kcmp x y) eqn:Q; [congruence| |].
        - split.
          + apply wfc_cons. split; [rewrite Pa; discriminate|].
            split; [constructor; [|constructor]; unfold head_lt; now rewrite Pa, Pb|].
            split; [auto|]. split; [auto|]. apply wfc_single; auto. rewrite Pb. discriminate.
          + intros k. cbn [RadixFacts.lkc fold_right]. destruct (lk a' k); auto. now destruct (lk b' k).
        - apply (cmp_gt_lt L) in Q. split.
          + apply wfc_cons. split; [rewrite Pb; discriminate|].
            split; [constructor; [|constructor]; unfold head_lt; now rewrite Pa, Pb|].
            split; [auto|]. split; [auto|]. apply wfc_single; auto. rewrite Pa. discriminate.
          + intros k. cbn [RadixFacts.lkc fold_right]. destruct (lk b' k) eqn:Q1, (lk a' k) eqn:Q2; auto. exfalso.
            rewrite Eb in Q1. unfold a' in Q2. rewrite lk_strip in Q1, Q2.
            destruct (fork_strip [] x r y u k Hxy) as [Z|Z]; cbn [app] in Z; rewrite Z in *; discriminate. }
      destruct Wl as [Wl Hl].
      exists (t_unsplit (Node s None l)). cbn [rbind]. split; [reflexivity|].
      split; [now apply unsplit_wf|]. split.
      - intros h H1 H2 He. apply unsplit_hd; auto. unfold hd_of in H1, H2. cbn [t_prefix] in H1, H2.
        eapply hd_common; eauto.
      - intros k. rewrite (unsplit_lk q), lk_node by auto. rewrite lk_strip, ob_strip, !strip_app_l.
        destruct (strip s k) as [[|c z]|]; auto.
        rewrite Hl, Hlb. unfold a'. rewrite lk_strip, ob_strip.
        destruct (strip (x :: r) (c :: z)) as [z1|] eqn:Z1; [|now destruct (strip (y :: u) (c :: z))].
        destruct (fork_strip [] x r y u (c :: z) Hxy) as [Z|Z]; cbn [app] in Z; [congruence|].
        rewrite Z. rewrite !Hgd. now destruct (lk (Node [] v ca) z1).
    Qed.

    (** the two trees do not overlap, for an operation that treats the left one uniformly *)
    Lemma fork_ob s x r y u v ca w cb (P : option V -> option V) :
      x <> y -> (forall z, g z d = P z) -> (forall o, g None o = None) ->
      P None = None ->
      forall k, g (lk (Node (s ++ x :: r) v ca) k) (ob (Node (s ++ y :: u) w cb) k) = P (lk (Node (s ++ x :: r) v ca) k).
    Proof.
      intros Hxy Hg HN HP k. rewrite lk_strip, ob_strip.
      destruct (fork_strip s x r y u k Hxy) as [Z|Z]; rewrite Z.
      - now rewrite HN, HP.
      - apply Hg.
    Qed.
  End Step.

  Definition g_remove {V} (v : option V) (b : bool) : option V := if b then None else v.
  Definition g_retain {V} (v : option V) (b : bool) : option V := if b then v else None.
  Definition g_left {V W} (f : V -> option W -> option V) (v : option V) (o : option (option W)) : option V :=
    match o with None => v | Some ow => val_left f v ow end.

  (** solves the arithmetic on prefixes in each of the four cases *)
  Ltac cases p p2 :=
    destruct (cp_cases E p p2) as [<- Hn|x r -> Hn|x r -> Hn|s x r y u -> -> Hxy Hn]; rewrite Hn; clear Hn;
    rewrite ?Nat.eqb_refl, ?app_cons_length; cbn [andb].

  Ltac shorten :=
    repeat match goal with
    | H : RadixSpec.wf _ _ ?t |- context [mat_short ?t ?n] =>
        rewrite (mat_short_ok (kcmp := kcmp) _ t n H) by (cbn [t_prefix]; rewrite app_length; simpl; lia)
    end;
    cbn [rbind t_prefix t_value t_children]; rewrite ?skipn_app_exact, ?firstn_app_exact.
  Ltac splitted := unfold t_split at 1; rewrite ?app_cons_ltb; cbn [rbind t_prefix t_value t_children];
    rewrite ?skipn_app_exact, ?firstn_app_exact.

  (** ** outer_combine_with *)
  Section OuterWith.
    Context {V : Type} (f : V -> V -> V * bool) (q : bool).
    Lemma outer_with_spec fuel : forall a b : rtree K V, t_size a + t_size b < fuel -> wf q a -> wf q b ->
      spec lk (upd_outer f) q q (outer_with kcmp strat f fuel) a b.
    Proof.
      induction fuel as [|fuel IH]; intros a b Hf Wa Wb; [lia|].
      set (M := children_with kcmp strat (outer_with kcmp strat f fuel) true true mat_conv).
      assert (HM : forall ca cb, wfc q ca -> wfc q cb ->
        (forall x y, In x ca -> In y cb -> hd_of x = hd_of y ->
           exists t, outer_with kcmp strat f fuel x y = Ok t /\ wf q t /\ (t_is_empty t = false -> hd_of t = hd_of x) /\
                     forall k, lk t k = upd_outer f (lk x k) (lk y k)) ->
        exists l, M ca cb = Ok l /\ wfc q l /\
          forall c k, lkc l (c :: k) = upd_outer f (lkc ca (c :: k)) (obc (kcmp := kcmp) None lk cb (c :: k))).
      { intros ca cb Ca Cb H. apply (children_with_ok L E) with (qb := q); auto.
        intros y Hy. destruct (wfc_In _ _ _ Cb Hy) as (H1 & H2 & H3).
        exists y. split; [now apply (mat_conv_ok (kcmp := kcmp) q)|]. split; [repeat split; auto|].
        intros k. cbn. now destruct (lk y k). }
      assert (HB : below lk (upd_outer f) q q (outer_with kcmp strat f fuel) a b)
        by (intros x y Hs; apply IH; lia).
      change (result lk (upd_outer f) q
        (let n := common_prefix kcmp (t_prefix a) (t_prefix b) in
            if (n =? length (t_prefix a)) && (n =? length (t_prefix b)) then
              let v := upd_outer f (t_value a) (t_value b) in
              rbind (M (t_children a) (t_children b)) (fun c => Ok (Node (t_prefix a) v c))
            else if n =? length (t_prefix a) then
              rbind (mat_short b n) (fun that =>
              rbind (M (t_children a) [that]) (fun c => Ok (Node (t_prefix a) (t_value a) c)))
            else if n =? length (t_prefix b) then
              rbind (t_split a n) (fun self =>
              let v := upd_outer f (t_value self) (t_value b) in
              rbind (M (t_children self) (t_children b)) (fun c => Ok (Node (t_prefix self) v c)))
            else
              rbind (t_split a n) (fun self =>
              rbind (mat_short b n) (fun that =>
              rbind (sort_heads kcmp (t_children self ++ [that])) (fun c =>
              Ok (Node (t_prefix self) (t_value self) c))))) a b).
      destruct a as [p v ca], b as [p2 w cb]. cbn [t_prefix t_value t_children] in *. cbv zeta.
      pose proof (wf_wfc _ _ Wb) as Cb. cbn [t_children] in Cb.
      cases p p2.
      - apply (step_same None lk (upd_outer f) lk_strip eq_refl q q _ M HM); auto.
        intros. now apply (lk_obc q).
      - shorten. apply (step_left None lk (upd_outer f) lk_strip eq_refl q q _ M HM); auto.
      - splitted. apply (step_right None lk (upd_outer f) lk_strip eq_refl q q _ M HM); auto.
        intros. now apply (lk_obc q).
      - splitted. shorten. cbn [app].
        assert (Hs : exists l, sort_heads kcmp [Node (x :: r) v ca; Node (y :: u) w cb] = Ok l)
          by (unfold sort_heads; simpl; eauto).
        destruct Hs as [l Hs]. rewrite Hs. cbn [rbind].
        eapply (step_fork None lk (upd_outer f) lk_strip eq_refl q q) with (b' := Node (y :: u) w cb); eauto.
        + eapply wf_shorten; eauto. destruct s; discriminate.
        + intros ->. apply wf_true_ne in Wb; auto. destruct s; discriminate.
        + intros k. unfold upd_outer. now destruct (lk (Node (y :: u) w cb) k).
    Qed.
  End OuterWith.
  (** ** inner_combine_with *)
  Section S_inner_with.
    Context {V W : Type} (f : V -> W -> V * bool) (q qb : bool).
    Lemma inner_with_spec fuel : forall (a : rtree K V) (b : rtree K W), t_size a + t_size b < fuel -> wf q a -> wf qb b ->
      spec (lk) (upd_inner f) q qb (inner_with kcmp strat f fuel) a b.
    Proof.
      induction fuel as [|fuel IH]; intros a b Hf Wa Wb; [lia|].
      set (M := children_with kcmp strat (inner_with kcmp strat f fuel) false false NoConverter).
      assert (HM : forall ca cb, wfc q ca -> wfc qb cb ->
        (forall x y, In x ca -> In y cb -> hd_of x = hd_of y ->
           exists t, inner_with kcmp strat f fuel x y = Ok t /\ wf q t /\ (t_is_empty t = false -> hd_of t = hd_of x) /\
                     forall k, lk t k = upd_inner f (lk x k) (lk y k)) ->
        exists l, M ca cb = Ok l /\ wfc q l /\
          forall c k, lkc l (c :: k) = upd_inner f (lkc ca (c :: k)) (obc (kcmp := kcmp) None (lk) cb (c :: k))).
      { intros ca cb Ca Cb H. apply (children_with_ok L E) with (qb := qb); auto. now intros [v|]. }
      assert (HB : below (lk) (upd_inner f) q qb (inner_with kcmp strat f fuel) a b)
        by (intros x y Hs; apply IH; lia).
      change (result (lk) (upd_inner f) q
        (let n := common_prefix kcmp (t_prefix a) (t_prefix b) in
            if (n =? length (t_prefix a)) && (n =? length (t_prefix b)) then rbind (M (t_children a) (t_children b)) (fun c => Ok (Node (t_prefix a) (upd_inner f (t_value a) (t_value b)) c))
            else if n =? length (t_prefix a) then rbind (mat_short b n) (fun b => rbind (M (t_children a) [b]) (fun c => Ok (Node (t_prefix a) None c)))
            else if n =? length (t_prefix b) then rbind (t_split a n) (fun a => rbind (M (t_children a) (t_children b)) (fun c => Ok (Node (t_prefix a) (t_value a) c)))
            else Ok (Node (t_prefix a) None [])) a b).
      destruct a as [p v ca], b as [p2 w cb]. cbn [t_prefix t_value t_children] in *. cbv zeta.
      pose proof (wf_wfc _ _ Wa) as Ca. cbn [t_children] in Ca.
      pose proof (wf_wfc _ _ Wb) as Cb. cbn [t_children] in Cb.
      cases p p2.
      - apply (step_same None lk (upd_inner f) lk_strip eq_refl q qb _ M HM); auto.
        intros. now apply (lk_obc qb).
      - shorten. apply (step_left None lk (upd_inner f) lk_strip eq_refl q qb _ M HM); auto. now destruct v.
      - splitted. apply (step_right None lk (upd_inner f) lk_strip eq_refl q qb _ M HM); auto.
        intros. now apply (lk_obc qb).
      - apply step_clear. apply (fork_ob None lk (upd_inner f) lk_strip) with (P := fun _ => None); auto. now intros [z|].
    Qed.
  End S_inner_with.

  (** ** left_combine_with *)
  Section S_left_with.
    Context {V W : Type} (f : V -> W -> V * bool) (q qb : bool).
    Lemma left_with_spec fuel : forall (a : rtree K V) (b : rtree K W), t_size a + t_size b < fuel -> wf q a -> wf qb b ->
      spec (lk) (upd_left f) q qb (left_with kcmp strat f fuel) a b.
    Proof.
      induction fuel as [|fuel IH]; intros a b Hf Wa Wb; [lia|].
      set (M := children_with kcmp strat (left_with kcmp strat f fuel) true false NoConverter).
      assert (HM : forall ca cb, wfc q ca -> wfc qb cb ->
        (forall x y, In x ca -> In y cb -> hd_of x = hd_of y ->
           exists t, left_with kcmp strat f fuel x y = Ok t /\ wf q t /\ (t_is_empty t = false -> hd_of t = hd_of x) /\
                     forall k, lk t k = upd_left f (lk x k) (lk y k)) ->
        exists l, M ca cb = Ok l /\ wfc q l /\
          forall c k, lkc l (c :: k) = upd_left f (lkc ca (c :: k)) (obc (kcmp := kcmp) None (lk) cb (c :: k))).
      { intros ca cb Ca Cb H. apply (children_with_ok L E) with (qb := qb); auto. intros y _ k. cbn. now destruct (lk y k). }
      assert (HB : below (lk) (upd_left f) q qb (left_with kcmp strat f fuel) a b)
        by (intros x y Hs; apply IH; lia).
      change (result (lk) (upd_left f) q
        (let n := common_prefix kcmp (t_prefix a) (t_prefix b) in
            if (n =? length (t_prefix a)) && (n =? length (t_prefix b)) then rbind (M (t_children a) (t_children b)) (fun c => Ok (Node (t_prefix a) (upd_left f (t_value a) (t_value b)) c))
            else if n =? length (t_prefix a) then rbind (mat_short b n) (fun b => rbind (M (t_children a) [b]) (fun c => Ok (Node (t_prefix a) (t_value a) c)))
            else if n =? length (t_prefix b) then rbind (t_split a n) (fun a => rbind (M (t_children a) (t_children b)) (fun c => Ok (Node (t_prefix a) (t_value a) c)))
            else Ok a) a b).
      destruct a as [p v ca], b as [p2 w cb]. cbn [t_prefix t_value t_children] in *. cbv zeta.
      pose proof (wf_wfc _ _ Wa) as Ca. cbn [t_children] in Ca.
      pose proof (wf_wfc _ _ Wb) as Cb. cbn [t_children] in Cb.
      cases p p2.
      - apply (step_same None lk (upd_left f) lk_strip eq_refl q qb _ M HM); auto.
        intros. now apply (lk_obc qb).
      - shorten. apply (step_left None lk (upd_left f) lk_strip eq_refl q qb _ M HM); auto.
      - splitted. apply (step_right None lk (upd_left f) lk_strip eq_refl q qb _ M HM); auto.
        + cbn. now destruct w.
        + intros. now apply (lk_obc qb).
      - apply step_keep; auto. apply (fork_ob None lk (upd_left f) lk_strip) with (P := fun z => z); auto. now intros [o|].
    Qed.
  End S_left_with.

  (** ** remove_prefix_with *)
  Section S_remove_with.
    Context {V W : Type} (f : W -> bool) (q qb : bool).
    Lemma remove_with_spec fuel : forall (a : rtree K V) (b : rtree K W), t_size a + t_size b < fuel -> wf q a -> wf qb b ->
      spec (pfx f) (g_remove) q qb (remove_with kcmp strat f fuel) a b.
    Proof.
      induction fuel as [|fuel IH]; intros a b Hf Wa Wb; [lia|].
      set (M := children_with (V := V) kcmp strat (remove_with kcmp strat f fuel) true false NoConverter).
      assert (HM : forall ca cb, wfc q ca -> wfc qb cb ->
        (forall x y, In x ca -> In y cb -> hd_of x = hd_of y ->
           exists t, remove_with kcmp strat f fuel x y = Ok t /\ wf q t /\ (t_is_empty t = false -> hd_of t = hd_of x) /\
                     forall k, lk t k = g_remove (lk x k) (pfx f y k)) ->
        exists l, M ca cb = Ok l /\ wfc q l /\
          forall c k, lkc l (c :: k) = g_remove (lkc ca (c :: k)) (obc (kcmp := kcmp) false (pfx f) cb (c :: k))).
      { intros ca cb Ca Cb H. apply (children_with_ok L E) with (qb := qb); auto. intros y _ k. now destruct (pfx f y k). }
      assert (HB : below (pfx f) (g_remove) q qb (remove_with kcmp strat f fuel) a b)
        by (intros x y Hs; apply IH; lia).
      change (result (pfx f) (g_remove) q
        (let n := common_prefix kcmp (t_prefix a) (t_prefix b) in
            if (n =? length (t_prefix a)) && (n =? length (t_prefix b)) then if hit f (t_value b) then Ok (Node (t_prefix a) None []) else rbind (M (t_children a) (t_children b)) (fun c => Ok (Node (t_prefix a) (t_value a) c))
            else if n =? length (t_prefix b) then if hit f (t_value b) then Ok (Node (t_prefix a) None []) else rbind (t_split a n) (fun a => rbind (M (t_children a) (t_children b)) (fun c => Ok (Node (t_prefix a) (t_value a) c)))
            else if n =? length (t_prefix a) then rbind (mat_short b n) (fun b => rbind (M (t_children a) [b]) (fun c => Ok (Node (t_prefix a) (t_value a) c)))
            else Ok a) a b).
      destruct a as [p v ca], b as [p2 w cb]. cbn [t_prefix t_value t_children] in *. cbv zeta.
      pose proof (wf_wfc _ _ Wa) as Ca. cbn [t_children] in Ca.
      pose proof (wf_wfc _ _ Wb) as Cb. cbn [t_children] in Cb.
      cases p p2.
      - destruct (hit f w) eqn:Hw.
        + apply step_clear. intros k. rewrite lk_strip, pfx_strip. destruct (strip p k); auto. now rewrite pfx_hit.
        + apply (step_same false (pfx f) g_remove (pfx_strip f) eq_refl q qb _ M HM); auto.
          * rewrite (pfx_nil qb), Hw by auto. auto.
          * intros. rewrite (pfx_obc qb), Hw by auto. auto.
      - shorten. apply (step_left false (pfx f) g_remove (pfx_strip f) eq_refl q qb _ M HM); auto.
      - destruct (hit f w) eqn:Hw.
        + apply step_clear. intros k. rewrite lk_strip, pfx_strip, strip_app_l. destruct (strip p2 k); auto. now rewrite pfx_hit.
        + splitted. apply (step_right false (pfx f) g_remove (pfx_strip f) eq_refl q qb _ M HM); auto.
          * rewrite (pfx_nil qb), Hw by auto. auto.
          * intros. rewrite (pfx_obc qb), Hw by auto. auto.
      - apply step_keep; auto. apply (fork_ob false (pfx f) g_remove (pfx_strip f)) with (P := fun z => z); auto. now intros [|].
    Qed.
  End S_remove_with.

  (** ** retain_prefix_with *)
  Section S_retain_with.
    Context {V W : Type} (f : W -> bool) (q qb : bool).
    Lemma retain_with_spec fuel : forall (a : rtree K V) (b : rtree K W), t_size a + t_size b < fuel -> wf q a -> wf qb b ->
      spec (pfx f) (g_retain) q qb (retain_with kcmp strat f fuel) a b.
    Proof.
      induction fuel as [|fuel IH]; intros a b Hf Wa Wb; [lia|].
      set (M := children_with (V := V) kcmp strat (retain_with kcmp strat f fuel) false false NoConverter).
      assert (HM : forall ca cb, wfc q ca -> wfc qb cb ->
        (forall x y, In x ca -> In y cb -> hd_of x = hd_of y ->
           exists t, retain_with kcmp strat f fuel x y = Ok t /\ wf q t /\ (t_is_empty t = false -> hd_of t = hd_of x) /\
                     forall k, lk t k = g_retain (lk x k) (pfx f y k)) ->
        exists l, M ca cb = Ok l /\ wfc q l /\
          forall c k, lkc l (c :: k) = g_retain (lkc ca (c :: k)) (obc (kcmp := kcmp) false (pfx f) cb (c :: k))).
      { intros ca cb Ca Cb H. apply (children_with_ok L E) with (qb := qb); auto. intros y _ k. now destruct (pfx f y k). }
      assert (HB : below (pfx f) (g_retain) q qb (retain_with kcmp strat f fuel) a b)
        by (intros x y Hs; apply IH; lia).
      change (result (pfx f) (g_retain) q
        (let n := common_prefix kcmp (t_prefix a) (t_prefix b) in
            if (n =? length (t_prefix a)) && (n =? length (t_prefix b)) then if hit f (t_value b) then Ok a else rbind (M (t_children a) (t_children b)) (fun c => Ok (Node (t_prefix a) None c))
            else if n =? length (t_prefix b) then if hit f (t_value b) then Ok a else rbind (t_split a n) (fun a => rbind (M (t_children a) (t_children b)) (fun c => Ok (Node (t_prefix a) (t_value a) c)))
            else if n =? length (t_prefix a) then rbind (mat_short b n) (fun b => rbind (M (t_children a) [b]) (fun c => Ok (Node (t_prefix a) None c)))
            else Ok (Node (t_prefix a) None [])) a b).
      destruct a as [p v ca], b as [p2 w cb]. cbn [t_prefix t_value t_children] in *. cbv zeta.
      pose proof (wf_wfc _ _ Wa) as Ca. cbn [t_children] in Ca.
      pose proof (wf_wfc _ _ Wb) as Cb. cbn [t_children] in Cb.
      cases p p2.
      - destruct (hit f w) eqn:Hw.
        + apply step_keep; auto. intros k. rewrite lk_strip, pfx_strip. destruct (strip p k); auto. now rewrite pfx_hit.
        + apply (step_same false (pfx f) g_retain (pfx_strip f) eq_refl q qb _ M HM); auto.
          * rewrite (pfx_nil qb), Hw by auto. auto.
          * intros. rewrite (pfx_obc qb), Hw by auto. auto.
      - shorten. apply (step_left false (pfx f) g_retain (pfx_strip f) eq_refl q qb _ M HM); auto.
      - destruct (hit f w) eqn:Hw.
        + apply step_keep; auto. intros k. rewrite lk_strip, pfx_strip, strip_app_l. destruct (strip p2 k); auto. now rewrite pfx_hit.
        + splitted. apply (step_right false (pfx f) g_retain (pfx_strip f) eq_refl q qb _ M HM); auto.
          * rewrite (pfx_nil qb), Hw by auto. auto.
          * intros. rewrite (pfx_obc qb), Hw by auto. auto.
      - apply step_clear. apply (fork_ob false (pfx f) g_retain (pfx_strip f)) with (P := fun _ => None); auto. now intros [|].
    Qed.
  End S_retain_with.

  (** ** inner_combine *)
  Section S_inner_pure.
    Context {V W : Type} (f : V -> W -> option V) (q qb : bool).
    Lemma inner_pure_spec fuel : forall (a : rtree K V) (b : rtree K W), t_size a + t_size b < fuel -> wf q a -> wf qb b ->
      spec (lk) (val_inner f) q qb (inner_pure kcmp strat f fuel) a b.
    Proof.
      induction fuel as [|fuel IH]; intros a b Hf Wa Wb; [lia|].
      set (M := children_pure kcmp strat (inner_pure kcmp strat f fuel) false false mat_conv NoConverter).
      assert (HM : forall ca cb, wfc q ca -> wfc qb cb ->
        (forall x y, In x ca -> In y cb -> hd_of x = hd_of y ->
           exists t, inner_pure kcmp strat f fuel x y = Ok t /\ wf q t /\ (t_is_empty t = false -> hd_of t = hd_of x) /\
                     forall k, lk t k = val_inner f (lk x k) (lk y k)) ->
        exists l, M ca cb = Ok l /\ wfc q l /\
          forall c k, lkc l (c :: k) = val_inner f (lkc ca (c :: k)) (obc (kcmp := kcmp) None (lk) cb (c :: k))).
      { intros ca cb Ca Cb H. apply (children_pure_ok L E) with (qb := qb); auto; [now intros [v|]|discriminate]. }
      assert (HB : below (lk) (val_inner f) q qb (inner_pure kcmp strat f fuel) a b)
        by (intros x y Hs; apply IH; lia).
      change (result (lk) (val_inner f) q
        (let n := common_prefix kcmp (t_prefix a) (t_prefix b) in let prefix := firstn n (t_prefix a) in
            if (n =? length (t_prefix a)) && (n =? length (t_prefix b)) then rbind (M (t_children a) (t_children b)) (fun c => Ok (Node (firstn n (t_prefix a)) (val_inner f (t_value a) (t_value b)) c))
            else if n =? length (t_prefix a) then rbind (mat_short b n) (fun b => rbind (M (t_children a) [b]) (fun c => Ok (Node prefix None c)))
            else if n =? length (t_prefix b) then rbind (mat_short a n) (fun a => rbind (M [a] (t_children b)) (fun c => Ok (Node prefix None c)))
            else Ok (Node prefix None [])) a b).
      destruct a as [p v ca], b as [p2 w cb]. cbn [t_prefix t_value t_children] in *. cbv zeta.
      pose proof (wf_wfc _ _ Wa) as Ca. cbn [t_children] in Ca.
      pose proof (wf_wfc _ _ Wb) as Cb. cbn [t_children] in Cb.
      cases p p2.
      - rewrite firstn_all. apply (step_same None lk (val_inner f) lk_strip eq_refl q qb _ M HM); auto.
        intros. now apply (lk_obc qb).
      - shorten. rewrite firstn_all. apply (step_left None lk (val_inner f) lk_strip eq_refl q qb _ M HM); auto. now destruct v.
      - shorten. apply (step_right None lk (val_inner f) lk_strip eq_refl q qb _ M HM); auto.
        intros. now apply (lk_obc qb).
      - apply step_clear. apply (fork_ob None lk (val_inner f) lk_strip) with (P := fun _ => None); auto. now intros [z|].
    Qed.
  End S_inner_pure.

  (** ** left_combine *)
  Section S_left_pure.
    Context {V W : Type} (f : V -> option W -> option V) (q qb : bool).
    Lemma left_pure_spec fuel : forall (a : rtree K V) (b : rtree K W), t_size a + t_size b < fuel -> wf q a -> wf qb b ->
      spec (nd) ((g_left f)) q qb (left_pure kcmp strat f fuel) a b.
    Proof.
      induction fuel as [|fuel IH]; intros a b Hf Wa Wb; [lia|].
      set (M := children_pure kcmp strat (left_pure kcmp strat f fuel) true false mat_conv NoConverter).
      assert (HM : forall ca cb, wfc q ca -> wfc qb cb ->
        (forall x y, In x ca -> In y cb -> hd_of x = hd_of y ->
           exists t, left_pure kcmp strat f fuel x y = Ok t /\ wf q t /\ (t_is_empty t = false -> hd_of t = hd_of x) /\
                     forall k, lk t k = (g_left f) (lk x k) (nd y k)) ->
        exists l, M ca cb = Ok l /\ wfc q l /\
          forall c k, lkc l (c :: k) = (g_left f) (lkc ca (c :: k)) (obc (kcmp := kcmp) None (nd) cb (c :: k))).
      { intros ca cb Ca Cb H. apply (children_pure_ok L E) with (qb := qb); auto; [intros y _ k; now destruct (nd y k)|]. intros _ x Hx. destruct (wfc_In _ _ _ Ca Hx) as (H1 & H2 & H3). now apply (mat_conv_ok (kcmp := kcmp) q). }
      assert (HB : below (nd) ((g_left f)) q qb (left_pure kcmp strat f fuel) a b)
        by (intros x y Hs; apply IH; lia).
      change (result (nd) ((g_left f)) q
        (let n := common_prefix kcmp (t_prefix a) (t_prefix b) in let prefix := firstn n (t_prefix a) in
            if (n =? length (t_prefix a)) && (n =? length (t_prefix b)) then rbind (M (t_children a) (t_children b)) (fun c => Ok (Node (firstn n (t_prefix a)) (val_left f (t_value a) (t_value b)) c))
            else if n =? length (t_prefix a) then rbind (mat_short b n) (fun b => rbind (M (t_children a) [b]) (fun c => Ok (Node prefix (t_value a) c)))
            else if n =? length (t_prefix b) then rbind (mat_short a n) (fun a => rbind (M [a] (t_children b)) (fun c => Ok (Node prefix None c)))
            else rbind (mat_all (t_children a)) (fun c => Ok (Node (t_prefix a) (t_value a) c))) a b).
      destruct a as [p v ca], b as [p2 w cb]. cbn [t_prefix t_value t_children] in *. cbv zeta.
      pose proof (wf_wfc _ _ Wa) as Ca. cbn [t_children] in Ca.
      pose proof (wf_wfc _ _ Wb) as Cb. cbn [t_children] in Cb.
      cases p p2.
      - rewrite firstn_all. apply (step_same None nd (g_left f) nd_strip eq_refl q qb _ M HM); auto.
        intros. now apply (nd_obc qb).
      - shorten. rewrite firstn_all. apply (step_left None nd (g_left f) nd_strip eq_refl q qb _ M HM); auto.
      - shorten. apply (step_right None nd (g_left f) nd_strip eq_refl q qb _ M HM); auto.
        intros. now apply (nd_obc qb).
      - rewrite (mat_all_ok (kcmp := kcmp) q) by auto. cbn [rbind].
        apply step_keep; auto. apply (fork_ob None nd (g_left f) nd_strip) with (P := fun z => z); auto. now intros [o|].
    Qed.
  End S_left_pure.

  (** ** outer_combine *)
  Section S_outer_pure.
    Context {V : Type} (f : V -> V -> option V) (q : bool).
    Lemma outer_pure_spec fuel : forall (a : rtree K V) (b : rtree K V), t_size a + t_size b < fuel -> wf q a -> wf q b ->
      spec (lk) (val_outer f) q q (outer_pure kcmp strat f fuel) a b.
    Proof.
      induction fuel as [|fuel IH]; intros a b Hf Wa Wb; [lia|].
      set (M := children_pure kcmp strat (outer_pure kcmp strat f fuel) true true mat_conv mat_conv).
      assert (HM : forall ca cb, wfc q ca -> wfc q cb ->
        (forall x y, In x ca -> In y cb -> hd_of x = hd_of y ->
           exists t, outer_pure kcmp strat f fuel x y = Ok t /\ wf q t /\ (t_is_empty t = false -> hd_of t = hd_of x) /\
                     forall k, lk t k = val_outer f (lk x k) (lk y k)) ->
        exists l, M ca cb = Ok l /\ wfc q l /\
          forall c k, lkc l (c :: k) = val_outer f (lkc ca (c :: k)) (obc (kcmp := kcmp) None (lk) cb (c :: k))).
      { intros ca cb Ca Cb H. apply (children_pure_ok L E) with (qb := q); auto.
        - now intros [v|].
        - intros y Hy. destruct (wfc_In _ _ _ Cb Hy) as (H1 & H2 & H3).
          exists y. split; [now apply (mat_conv_ok (kcmp := kcmp) q)|]. split; [repeat split; auto|].
          intros k. unfold val_outer. now destruct (lk y k).
        - intros _ x Hx. destruct (wfc_In _ _ _ Ca Hx) as (H1 & H2 & H3). now apply (mat_conv_ok (kcmp := kcmp) q). }
      assert (HB : below (lk) (val_outer f) q q (outer_pure kcmp strat f fuel) a b)
        by (intros x y Hs; apply IH; lia).
      change (result (lk) (val_outer f) q
        (let n := common_prefix kcmp (t_prefix a) (t_prefix b) in let prefix := firstn n (t_prefix a) in
            if (n =? length (t_prefix a)) && (n =? length (t_prefix b)) then rbind (M (t_children a) (t_children b)) (fun c => Ok (Node (firstn n (t_prefix a)) (val_outer f (t_value a) (t_value b)) c))
            else if n =? length (t_prefix a) then rbind (mat_short b n) (fun b => rbind (M (t_children a) [b]) (fun c => Ok (Node prefix (t_value a) c)))
            else if n =? length (t_prefix b) then rbind (mat_short a n) (fun a => rbind (M [a] (t_children b)) (fun c => Ok (Node prefix (t_value b) c)))
            else rbind (mat_short a n) (fun a => rbind (mat_short b n) (fun b => rbind (sort_heads kcmp [a; b]) (fun c => Ok (Node prefix None c))))) a b).
      destruct a as [p v ca], b as [p2 w cb]. cbn [t_prefix t_value t_children] in *. cbv zeta.
      pose proof (wf_wfc _ _ Wa) as Ca. cbn [t_children] in Ca.
      pose proof (wf_wfc _ _ Wb) as Cb. cbn [t_children] in Cb.
      cases p p2.
      - rewrite firstn_all. apply (step_same None lk (val_outer f) lk_strip eq_refl q q _ M HM); auto.
        intros. now apply (lk_obc q).
      - shorten. rewrite firstn_all. apply (step_left None lk (val_outer f) lk_strip eq_refl q q _ M HM); auto. now destruct v.
      - shorten. apply (step_right None lk (val_outer f) lk_strip eq_refl q q _ M HM); auto.
        + now destruct w.
        + intros. now apply (lk_obc q).
      - shorten.
        assert (Hs : exists l, sort_heads kcmp [Node (x :: r) v ca; Node (y :: u) w cb] = Ok l)
          by (unfold sort_heads; simpl; eauto).
        destruct Hs as [l Hs]. rewrite Hs. cbn [rbind].
        eapply (step_fork None lk (val_outer f) lk_strip eq_refl q q) with (b' := Node (y :: u) w cb); eauto.
        + eapply wf_shorten; eauto. destruct s; discriminate.
        + intros ->. apply wf_true_ne in Wb; auto. destruct s; discriminate.
        + intros k. unfold val_outer. now destruct (lk (Node (y :: u) w cb) k).
        + now intros [z|].
    Qed.
  End S_outer_pure.

End Comb.

(** Lookup and iteration of radix trees. *)
From Verif Require Export RadixComb.

Section Find.
  Context {K : Type} {kcmp : K -> K -> comparison} (L : OrdLaws kcmp) (E : OrdEq kcmp).
  Notation strip := (strip kcmp).
  Notation lk := (lk kcmp).
  Notation wf := (wf kcmp).
  Notation wfc := (wfc (kcmp := kcmp)).
  Notation lkc := (lkc (kcmp := kcmp)).
  Notation child := (child (kcmp := kcmp)).

  Section V.
    Context {V : Type}.
    Notation tree := (rtree K V).

    (** ** find *)
    (** what a result of find says about all keys that start with [key] *)
    Definition find_means (t : tree) (key : list K) (r : @find_result K V) : Prop :=
      match r with
      | Found t' => wf false t' /\ (forall q, wf q t -> t' = t \/ wf q t' /\ t_prefix t' <> []) /\
                    (t' = t -> t_prefix t = key) /\
                    forall s, lk t (key ++ s) = lk (Node [] (t_value t') (t_children t')) s
      | FPrefix t' rt => exists p1 x p2, t_prefix t' = p1 ++ x :: p2 /\ rt = S (length p2) /\ wf false t' /\
                    (forall q, wf q t -> wf q t') /\
                    forall s, lk t (key ++ s) = lk (Node (x :: p2) (t_value t') (t_children t')) s
      | NotFound _ _ _ => forall s, lk t (key ++ s) = None
      end.

    Lemma bsearch_child (cs : list tree) c : wfc false cs ->
      (exists i u, bsearch (fun e : tree => match t_prefix e with h :: _ => Some (kcmp h c) | [] => None end) cs = BsOk i /\
         nth_error cs i = Some u /\ child c cs = Some u) \/
      (exists i, bsearch (fun e : tree => match t_prefix e with h :: _ => Some (kcmp h c) | [] => None end) cs = BsErr i /\
         child c cs = None).
    Proof.
      intros W. pose proof (wfc_ksorted _ _ W) as S.
      destruct (ksorted_split (hord_laws L) hd_of (Some c) cs S) as (l1 & l2 & H1 & H2 & H).
      assert (Hf : forall e, In e cs -> (match t_prefix e with h :: _ => Some (kcmp h c) | [] => None end) = Some (hord (kcmp := kcmp) (hd_of e) (Some c))).
      { intros e He. destruct (wfc_In _ _ _ W He) as (Hp & _ & _). unfold hd_of.
        destruct (t_prefix e); [congruence|reflexivity]. }
      destruct H as [->|(y & -> & Hy)].
      - right. exists (length l1). split.
        + apply bsearch_err; apply Forall_forall; intros e He; rewrite Hf by (apply in_or_app; auto); f_equal; auto.
        + apply (child_none E). intros t Ht Q. apply in_app_or in Ht as [Ht|Ht]; [apply H1 in Ht|apply H2 in Ht];
            rewrite Q in Ht; simpl in Ht; rewrite (kcmp_refl E) in Ht; discriminate.
      - left. exists (length l1), y. split; [|split].
        + apply bsearch_ok; try (apply Forall_forall; intros e He); rewrite Hf by (apply in_or_app; simpl; auto); f_equal; auto.
        + rewrite nth_error_app2, Nat.sub_diag by lia. reflexivity.
        + apply (child_iff E); auto. split; [apply in_or_app; simpl; auto|]. now apply (hord_eq E).
    Qed.

    Lemma find_loop_ok fuel : forall (t : tree) key, t_size t < fuel -> wf false t ->
      exists r, find_loop kcmp fuel t key = Ok r /\ find_means t key r.
    Proof.
      induction fuel as [|fuel IH]; intros t key Hf W; [lia|]. destruct t as [p v cs].
      pose proof (wf_wfc _ _ W) as C. cbn [t_children] in C.
      cbn [find_loop t_prefix t_children].
      destruct (cp_cases E p key) as [<- Hn|x r -> Hn|x r -> Hn|s x r y u -> -> Hxy Hn]; rewrite Hn; clear Hn.
      - rewrite Nat.sub_diag. cbn [Nat.eqb andb]. eexists. split; [reflexivity|]. cbn [find_means t_value t_children].
        split; [exact W|]. split; [auto|]. split; [auto|]. intros s. now rewrite lk_strip, (strip_app E).
      - rewrite app_length, Nat.sub_diag. cbn [length]. replace (length p + S (length r) - length p) with (S (length r)) by lia.
        cbn [Nat.eqb andb]. rewrite nth_error_app2, Nat.sub_diag by lia. cbn [nth_error].
        rewrite skipn_app_exact.
        assert (Hl : forall s, lk (Node p v cs) ((p ++ x :: r) ++ s) = lko (kcmp := kcmp) (child x cs) (x :: r ++ s)).
        { intros s. rewrite lk_node, <- app_assoc, (strip_app E). cbn [app]. now rewrite (lkc_child E false). }
        destruct (bsearch_child cs x C) as [(i & u & Q1 & Q2 & Q3)|(i & Q1 & Q3)]; rewrite Q1.
        + rewrite Q2. apply nth_error_In in Q2. destruct (wfc_In _ _ _ C Q2) as (Hp & Wu & _).
          destruct (IH u (x :: r)) as (res & Hr & Hm); auto.
          { pose proof (size_children (Node p v cs) u Q2). lia. }
          exists res. split; [exact Hr|]. destruct res as [t'|t' rt|t' rt rp]; cbn [find_means] in *.
          * destruct Hm as (W' & Hq & Hpk & Hs). split; [exact W'|]. split; [|split].
            -- intros q Wq. pose proof (wf_wfc _ _ Wq) as Cq. destruct (wfc_In _ _ _ Cq Q2) as (_ & Wuq & _).
               destruct (Hq q Wuq) as [->|[Hw Hp']]; right; auto.
            -- intros ->. exfalso. pose proof (size_children (Node p v cs) u Q2) as Z.
               destruct (Hq false Wu) as [Z2|_]; [rewrite Z2 in Z; lia|].
               clear - Hr Z. revert Hr. generalize (x :: r). intros k Hr.
               assert (forall f (a : tree) k' b, find_loop kcmp f a k' = Ok (Found b) -> t_size b <= t_size a) as HH.
               { clear. induction f as [|f IH]; intros a k' b; [discriminate|]. cbn [find_loop].
                 destruct ((_ =? 0) && (_ =? 0)); [intros [= <-]; lia|].
                 destruct (_ =? 0); [discriminate|]. destruct (_ =? 0); [|discriminate].
                 destruct (nth_error k' _) as [c|]; [|discriminate].
                 destruct (bsearch _ (t_children a)) as [i|i| |]; try discriminate.
                 destruct (nth_error (t_children a) i) as [ch|] eqn:Q; [|discriminate].
                 intros H. apply IH in H. apply nth_error_In in Q. apply size_children in Q. lia. }
               apply HH in Hr. lia.
            -- intros s. rewrite Hl, Q3. cbn [lko]. apply (Hs s).
          * destruct Hm as (p1 & x' & p2 & H1 & H2 & H3 & H4 & H5). exists p1, x', p2. split; [exact H1|]. split; [exact H2|]. split; [exact H3|]. split.
            -- intros q Wq. apply H4. pose proof (wf_wfc _ _ Wq) as Cq. now destruct (wfc_In _ _ _ Cq Q2) as (_ & Wuq & _).
            -- intros s. rewrite Hl, Q3. cbn [lko]. apply (H5 s).
          * intros s. rewrite Hl, Q3. cbn [lko]. apply (Hm s).
        + eexists. split; [reflexivity|]. cbn [find_means]. intros s. rewrite Hl, Q3. reflexivity.
      - rewrite app_length, Nat.sub_diag. cbn [length]. replace (length key + S (length r) - length key) with (S (length r)) by lia.
        cbn [Nat.eqb andb]. eexists. split; [reflexivity|]. cbn [find_means]. exists key, x, r. split; [reflexivity|]. split; [reflexivity|]. split; [exact W|]. split; [auto|].
        intros s. cbn [t_value t_children]. rewrite lk_strip, (lk_strip (x :: r)), strip_app_l, (strip_app E). reflexivity.
      - rewrite !app_length. cbn [length].
        replace (length s + S (length u) - length s) with (S (length u)) by lia.
        replace (length s + S (length r) - length s) with (S (length r)) by lia.
        cbn [Nat.eqb andb]. eexists. split; [reflexivity|]. cbn [find_means]. intros z.
        rewrite lk_strip, strip_app_l, <- app_assoc, (strip_app E). cbn [app].
        rewrite (strip_cons (kcmp := kcmp)). now rewrite (proj2 (keqb_neq E x y) Hxy).
    Qed.

    Lemma find_ok (t : tree) key : wf false t -> exists r, t_find kcmp t key = Ok r /\ find_means t key r.
    Proof. intros W. apply find_loop_ok; auto. Qed.

    Lemma get_ok (t : tree) key : wf false t -> rt_get kcmp t key = Ok (lk t key).
    Proof.
      intros W. unfold rt_get. destruct (find_ok t key W) as (r & -> & H). cbn [rbind]. f_equal.
      destruct r as [t'|t' rt|t' rt rp]; cbn [find_means] in H.
      - destruct H as (_ & _ & _ & H). rewrite <- (app_nil_r key), H. reflexivity.
      - destruct H as (p1 & x & p2 & _ & _ & _ & _ & H). rewrite <- (app_nil_r key), H. reflexivity.
      - rewrite <- (app_nil_r key), H. reflexivity.
    Qed.
    Lemma contains_ok (t : tree) key : wf false t ->
      rt_contains_key kcmp t key = Ok (match lk t key with Some _ => true | None => false end).
    Proof.
      intros W. pose proof (get_ok t key W) as H. unfold rt_get in H. unfold rt_contains_key.
      destruct (t_find kcmp t key) as [r| |]; try discriminate. cbn [rbind] in *. injection H as <-.
      now destruct r.
    Qed.

    (** ** filter_prefix *)
    Lemma filter_prefix_ok q (t : tree) p : wf q t ->
      exists t', rt_filter_prefix kcmp t p = Ok t' /\ wf q t' /\
        forall k, lk t' k = match strip p k with Some _ => lk t k | None => None end.
    Proof.
      intros W. unfold rt_filter_prefix. destruct (find_ok t p (wf_any _ _ W)) as (r & -> & H). cbn [rbind].
      destruct r as [t'|t' rt|t' rt rp]; cbn [find_means] in H.
      - destruct H as (_ & Hq & Hp & Hl). destruct t' as [p' v cs]. eexists. split; [reflexivity|]. split.
        + destruct (Hq q W) as [<-|[Hw Hne]].
          * rewrite <- (Hp eq_refl). exact W.
          * eapply wf_shorten; eauto.
        + intros k. rewrite lk_strip. destruct (strip p k) as [s|] eqn:S; auto.
          apply (strip_iff E) in S as ->. symmetry. apply Hl.
      - destruct H as (p1 & x & p2 & Hp & -> & _ & Hq & Hl). destruct t' as [p' v cs]. cbn [t_prefix] in Hp.
        rewrite Hp, app_length. cbn [length]. replace (S (length p2) <=? length p1 + S (length p2)) with true by (symmetry; apply Nat.leb_le; lia).
        replace (length p1 + S (length p2) - S (length p2)) with (length p1) by lia. rewrite skipn_app_exact.
        eexists. split; [reflexivity|]. split.
        + apply prepend_wf. apply (wf_shorten q p'); [now apply Hq|]. rewrite Hp. destruct p1; discriminate.
        + intros k. rewrite prepend_lk. destruct (strip p k) as [s|] eqn:S; auto.
          apply (strip_iff E) in S as ->. symmetry. apply Hl.
      - exists rt_empty. split; [reflexivity|]. split.
        + apply wf_node. split; [apply wfc_nil|]. split; [auto|discriminate].
        + intros k. rewrite lk_empty by reflexivity. destruct (strip p k) as [s|] eqn:S; auto.
          apply (strip_iff E) in S as ->. now rewrite H.
    Qed.

    (** ** Iteration *)
    Fixpoint enum (path : list K) (t : tree) : list (list K * V) :=
      let 'Node _ v cs := t in
      (match v with Some v => [(path, v)] | None => [] end) ++
      (fix go (l : list tree) : list (list K * V) :=
         match l with [] => [] | c :: l' => enum (path ++ t_prefix c) c ++ go l' end) cs.
    Definition enums (path : list K) (l : list tree) : list (list K * V) :=
      flat_map (fun c => enum (path ++ t_prefix c) c) l.
    Lemma enum_node path p v cs :
      enum path (Node p v cs) = (match v with Some v => [(path, v)] | None => [] end) ++ enums path cs.
    Proof. cbn [enum]. f_equal. Qed.

    Inductive iruns : istate -> nat -> list (list K * V) -> istate -> Prop :=
    | ir_nil : forall s, iruns s 0 [] s
    | ir_yield : forall s k v s' n l s'', iter_step s = IYield k v s' -> iruns s' n l s'' -> iruns s (S n) ((k, v) :: l) s''
    | ir_tau : forall s s' n l s'', iter_step s = ITau s' -> iruns s' n l s'' -> iruns s (S n) l s''.
    Lemma iruns_app s n l s' n' l' s'' : iruns s n l s' -> iruns s' n' l' s'' -> iruns s (n + n') (l ++ l') s''.
    Proof. induction 1; intros H'; simpl; auto; [eapply ir_yield; eauto|eapply ir_tau; eauto]. Qed.

    Lemma key_pop_append (path q : list K) : key_pop (path ++ q) (length q) = path.
    Proof. unfold key_pop. rewrite app_length. replace (length path + length q - length q) with (length path) by lia. apply firstn_app_exact. Qed.

    Definition cost (t : tree) : nat := 3 * t_size t - 1.
    Lemma iter_tree (t : tree) : forall path st,
      iruns (path, (t, 0) :: st) (cost t) (enum path t) (key_pop path (length (t_prefix t)), st).
    Proof.
      induction t as [p v cs IH] using rtree_ind'. intros path st.
      assert (H : forall l1 l2, cs = l1 ++ l2 ->
        iruns (path, (Node p v cs, S (length l1)) :: st) (S (list_sum (map (fun c => S (cost c)) l2))) (enums path l2)
              (key_pop path (length p), st)).
      { intros l1 l2. revert l1. induction l2 as [|c l2 IHl]; intros l1 Hcs.
        - apply ir_tau with (s' := (key_pop path (length p), st)); [|constructor].
          cbn [iter_step t_children t_prefix]. replace (nth_error cs (length l1)) with (@None tree); auto.
          symmetry. apply nth_error_None. rewrite Hcs, app_length. simpl. lia.
        - assert (Hc : nth_error cs (length l1) = Some c)
            by (rewrite Hcs, nth_error_app2, Nat.sub_diag by lia; reflexivity).
          cbn [map list_sum fold_right]. change (enums path (c :: l2)) with (enum (path ++ t_prefix c) c ++ enums path l2).
          apply ir_tau with (s' := (path ++ t_prefix c, (c, 0) :: (Node p v cs, S (S (length l1))) :: st)).
          { cbn [iter_step t_children]. rewrite Hc. reflexivity. }
          replace (S (cost c) + fold_right Init.Nat.add 0 (map (fun c0 => S (cost c0)) l2))
            with (cost c + S (list_sum (map (fun c0 => S (cost c0)) l2))) by (unfold list_sum; lia).
          eapply iruns_app.
          + rewrite Forall_forall in IH. apply IH. apply nth_error_In in Hc. exact Hc.
          + rewrite key_pop_append. specialize (IHl (l1 ++ [c])). rewrite app_length in IHl. simpl in IHl.
            rewrite Nat.add_1_r in IHl. apply IHl. now rewrite <- app_assoc. }
      assert (Hcost : cost (Node p v cs) = S (S (list_sum (map (fun c => S (cost c)) cs)))).
      { unfold cost. cbn [t_size]. clear. induction cs as [|c cs IH]; [reflexivity|]. cbn [map list_sum fold_right] in *.
        fold (list_sum (map t_size cs)) in *. fold (list_sum (map (fun c => S (3 * t_size c - 1)) cs)) in *.
        pose proof (size_pos c). lia. }
      rewrite Hcost, enum_node. specialize (H [] cs eq_refl). cbn [t_prefix].
      destruct v as [v|].
      - eapply ir_yield; [reflexivity|exact H].
      - eapply ir_tau; [reflexivity|exact H].
    Qed.

    Lemma iter_next_run s n l s' : iruns s n l s' -> snd s' = [] -> forall fuel, n < fuel ->
      (l = [] /\ iter_next fuel s = Ok None) \/
      (exists k v l' s1 n', l = (k, v) :: l' /\ iter_next fuel s = Ok (Some (k, v, s1)) /\ iruns s1 n' l' s' /\ n' <= n).
    Proof.
      induction 1 as [s|s k v s' n l s'' Hs Hr IH|s s' n l s'' Hs Hr IH]; intros He fuel Hf; (destruct fuel as [|fuel]; [lia|]).
      - left. split; auto. destruct s as [p st]. simpl in He. subst. reflexivity.
      - right. exists k, v, l, s', n. cbn [iter_next]. rewrite Hs. repeat split; auto.
      - cbn [iter_next]. rewrite Hs. destruct (IH He fuel) as [H|(k & v & l' & s1 & n' & H1 & H2 & H3 & H4)]; [lia|now left|].
        right. exists k, v, l', s1, n'. repeat split; auto.
    Qed.
    Lemma iter_collect_run l : forall s n s' calls fuel, iruns s n l s' -> snd s' = [] -> n < fuel -> length l < calls ->
      iter_collect calls fuel s = Ok l.
    Proof.
      induction l as [|[k v] l IH]; intros s n s' calls fuel Hr He Hf Hc; (destruct calls as [|calls]; [lia|]); cbn [iter_collect];
        destruct (iter_next_run s n _ s' Hr He fuel Hf) as [[Q ->]|(k' & v' & l' & s1 & n' & Q & -> & Hr' & Hn)]; try discriminate; cbn [rbind]; auto.
      injection Q as <- <- <-. rewrite (IH s1 n' s'); auto; simpl in *; lia.
    Qed.
    Lemma enum_length (t : tree) : forall path, length (enum path t) <= t_size t.
    Proof.
      induction t as [p v cs IH] using rtree_ind'. intros path. rewrite enum_node, app_length. cbn [t_size].
      assert (length (enums path cs) <= list_sum (map t_size cs)).
      { clear v. induction IH as [|c cs Hc H IHc]; auto. cbn [enums flat_map map list_sum fold_right]. rewrite app_length.
        specialize (Hc (path ++ t_prefix c)). unfold enums in IHc. fold (list_sum (map t_size cs)). lia. }
      destruct v; simpl length; lia.
    Qed.
    Lemma iter_from_ok (t : tree) path : iter_from t path = Ok (enum path t).
    Proof.
      unfold iter_from. eapply iter_collect_run; [apply iter_tree|reflexivity| |].
      - unfold cost. lia.
      - pose proof (enum_length t path). lia.
    Qed.

    (** *** Meaning of the enumeration *)
    Lemma enum_In (t : tree) : wf false t -> forall path k v,
      In (k, v) (enum path t) <-> exists s, k = path ++ s /\ lk (Node [] (t_value t) (t_children t)) s = Some v.
    Proof.
      induction t as [p ov cs IH] using rtree_ind'. intros W path k v. cbn [t_value t_children].
      pose proof (wf_wfc _ _ W) as C. cbn [t_children] in C. rewrite Forall_forall in IH.
      rewrite enum_node, in_app_iff. unfold enums. rewrite in_flat_map. split.
      - intros [H|(c & Hc & H)].
        + destruct ov as [u|]; [|destruct H]. destruct H as [[= <- <-]|[]]. exists []. rewrite app_nil_r. auto.
        + destruct (wfc_In _ _ _ C Hc) as (Hp & Wc & _). apply IH in H as (s & -> & Hs); auto.
          exists (t_prefix c ++ s). rewrite app_assoc. split; auto.
          destruct c as [[|h cp] w ds]; [simpl in Hp; congruence|]. cbn [t_prefix t_value t_children] in *.
          rewrite lk_node. cbn [RadixSpec.strip app]. apply (lkc_In E false); auto. eexists. split; [exact Hc|].
          rewrite lk_strip. change (h :: cp ++ s) with ((h :: cp) ++ s). now rewrite (strip_app E).
      - intros (s & -> & Hs). rewrite lk_node in Hs. cbn [RadixSpec.strip] in Hs. destruct s as [|x s].
        + subst ov. left. rewrite app_nil_r. now left.
        + right. apply (lkc_In E false) in Hs as (c & Hc & Hl); auto.
          destruct (wfc_In _ _ _ C Hc) as (Hp & Wc & _). exists c. split; auto. apply IH; auto.
          destruct c as [cp w ds]. rewrite lk_strip in Hl. destruct (strip cp (x :: s)) as [r|] eqn:S; [|discriminate].
          apply (strip_iff E) in S. exists r. cbn [t_prefix t_value t_children]. rewrite <- app_assoc, <- S. auto.
    Qed.

    Lemma lex_app p a b : lex kcmp (p ++ a) (p ++ b) = lex kcmp a b.
    Proof. induction p as [|x p IH]; simpl; auto. now rewrite (kcmp_refl E). Qed.
    Lemma lex_lt_head x y a b : kcmp x y = Lt -> lex kcmp (x :: a) (y :: b) = Lt.
    Proof. simpl. now intros ->. Qed.

    Lemma enum_sorted (t : tree) : wf false t -> forall path, sorted (lex kcmp) (map fst (enum path t)).
    Proof.
      induction t as [p ov cs IH] using rtree_ind'. intros W path.
      pose proof (wf_wfc _ _ W) as C. cbn [t_children] in C. rewrite Forall_forall in IH.
      assert (Hk : forall c k, In c cs -> In k (map fst (enum (path ++ t_prefix c) c)) ->
        exists h r, hd_of c = Some h /\ k = path ++ h :: r).
      { intros c k Hc Hi. apply in_map_iff in Hi as ([k' v] & <- & Hi). destruct (wfc_In _ _ _ C Hc) as (Hp & Wc & _).
        apply (enum_In c Wc) in Hi as (s & -> & _). unfold hd_of.
        destruct (t_prefix c) as [|h r]; [congruence|]. exists h, (r ++ s). simpl. rewrite <- app_assoc. auto. }
      rewrite enum_node, map_app. apply sorted_app. split; [|split].
      - destruct ov; simpl; [apply sorted_single|apply sorted_nil].
      - clear ov W. unfold enums. revert C IH Hk. induction cs as [|c cs IHc]; intros C IH Hk; [apply sorted_nil|].
        cbn [flat_map]. rewrite map_app. pose proof C as C'. apply wfc_cons in C' as (Hp & Hl & _ & Wc & C').
        apply sorted_app. split; [apply IH; simpl; auto|]. split.
        + apply IHc; auto; intros; [apply IH|apply Hk]; simpl; auto.
        + intros a b Ha Hb. apply Hk in Ha as (h & r & Hh & ->); [|now left].
          rewrite flat_map_concat_map, concat_map, map_map, <- flat_map_concat_map in Hb.
          apply in_flat_map in Hb as (c2 & Hc2 & Hb).
          apply Hk in Hb as (h2 & r2 & Hh2 & ->); [|now right].
          rewrite Forall_forall in Hl. apply Hl in Hc2. unfold head_lt in Hc2. unfold hd_of in *.
          destruct (t_prefix c), (t_prefix c2); simpl in *; try discriminate. injection Hh as <-. injection Hh2 as <-.
          rewrite lex_app. now apply lex_lt_head.
      - intros a b Ha Hb. destruct ov as [u|]; [|destruct Ha]. destruct Ha as [<-|[]]. cbn [fst].
        unfold enums in Hb. rewrite flat_map_concat_map, concat_map, map_map, <- flat_map_concat_map in Hb.
        apply in_flat_map in Hb as (c2 & Hc2 & Hb). apply Hk in Hb as (h2 & r2 & Hh2 & ->); auto.
        rewrite <- (app_nil_r path) at 1. now rewrite lex_app.
    Qed.

    (** ** values *)
    Inductive vruns : @stack K V -> nat -> list V -> @stack K V -> Prop :=
    | vr_nil : forall s, vruns s 0 [] s
    | vr_yield : forall s v s' n l s'', values_step s = VYield v s' -> vruns s' n l s'' -> vruns s (S n) (v :: l) s''
    | vr_tau : forall s s' n l s'', values_step s = VTau s' -> vruns s' n l s'' -> vruns s (S n) l s''.
    Lemma iruns_vruns s n l s' : iruns s n l s' -> vruns (snd s) n (map snd l) (snd s').
    Proof.
      induction 1 as [s|s k v s' n l s'' Hs Hr IH|s s' n l s'' Hs Hr IH]; [constructor| |]; simpl map;
        destruct s as [path [|[t [|i]] st]]; cbn [iter_step] in Hs; try discriminate.
      - destruct (t_value t) as [w|] eqn:Q; [|discriminate]. injection Hs as <- <- <-. eapply vr_yield; eauto. cbn. now rewrite Q.
      - destruct (nth_error (t_children t) i); discriminate.
      - destruct (t_value t) as [w|] eqn:Q; [discriminate|]. injection Hs as <-. eapply vr_tau; eauto. cbn. now rewrite Q.
      - destruct (nth_error (t_children t) i) as [c|] eqn:Q; injection Hs as <-; (eapply vr_tau; [|exact IH]); cbn; now rewrite Q.
    Qed.
    Lemma values_next_run s n l s' : vruns s n l s' -> s' = [] -> forall fuel, n < fuel ->
      (l = [] /\ values_next fuel s = Ok None) \/
      (exists v l' s1 n', l = v :: l' /\ values_next fuel s = Ok (Some (v, s1)) /\ vruns s1 n' l' s' /\ n' <= n).
    Proof.
      induction 1 as [s|s v s' n l s'' Hs Hr IH|s s' n l s'' Hs Hr IH]; intros He fuel Hf; (destruct fuel as [|fuel]; [lia|]).
      - left. subst. auto.
      - right. exists v, l, s', n. cbn [values_next]. rewrite Hs. repeat split; auto.
      - cbn [values_next]. rewrite Hs. destruct (IH He fuel) as [H|(v & l' & s1 & n' & H1 & H2 & H3 & H4)]; [lia|now left|].
        right. exists v, l', s1, n'. repeat split; auto.
    Qed.
    Lemma values_collect_run l : forall s n calls fuel, vruns s n l [] -> n < fuel -> length l < calls ->
      values_collect calls fuel s = Ok l.
    Proof.
      induction l as [|v l IH]; intros s n calls fuel Hr Hf Hc; (destruct calls as [|calls]; [lia|]); cbn [values_collect];
        destruct (values_next_run s n _ [] Hr eq_refl fuel Hf) as [[Q ->]|(v' & l' & s1 & n' & Q & -> & Hr' & Hn)]; try discriminate; cbn [rbind]; auto.
      injection Q as <- <-. rewrite (IH s1 n'); auto; simpl in *; lia.
    Qed.
    Lemma values_ok (t : tree) path : rt_values t = Ok (map snd (enum path t)).
    Proof.
      unfold rt_values. eapply values_collect_run.
      - apply (iruns_vruns _ _ _ _ (iter_tree t path [])).
      - unfold cost. lia.
      - rewrite map_length. pose proof (enum_length t path). lia.
    Qed.

    Lemma scan_prefix_ok (t : tree) p : wf false t ->
      exists l, rt_scan_prefix kcmp t p = Ok l /\ sorted (lex kcmp) (map fst l) /\
        forall k v, In (k, v) l <-> lk t k = Some v /\ exists s, k = p ++ s.
    Proof.
      intros W. unfold rt_scan_prefix. destruct (find_ok t p W) as (r & -> & H). cbn [rbind].
      destruct r as [t'|t' rt|t' rt rp]; cbn [find_means] in H.
      - destruct H as (W' & _ & _ & Hl). rewrite iter_from_ok. eexists. split; [reflexivity|]. split; [now apply enum_sorted|].
        intros k v. rewrite (enum_In t' W'). split.
        + intros (s & -> & Hs). rewrite Hl. eauto.
        + intros (Hk & s & ->). rewrite Hl in Hk. eauto.
      - destruct H as (p1 & x & p2 & Hp & -> & W' & _ & Hl). rewrite Hp, app_length. cbn [length].
        replace (S (length p2) <=? length p1 + S (length p2)) with true by (symmetry; apply Nat.leb_le; lia).
        replace (length p1 + S (length p2) - S (length p2)) with (length p1) by lia. rewrite skipn_app_exact.
        rewrite iter_from_ok. eexists. split; [reflexivity|]. split; [now apply enum_sorted|].
        intros k v. rewrite (enum_In t' W'). unfold key_append. split.
        + intros (s & -> & Hs). rewrite <- app_assoc, Hl. split; [|eauto]. rewrite lk_strip, (strip_app E). exact Hs.
        + intros (Hk & s & ->). rewrite Hl, lk_strip in Hk. destruct (strip (x :: p2) s) as [r|] eqn:S; [|discriminate].
          apply (strip_iff E) in S as ->. exists r. now rewrite app_assoc.
      - exists []. split; [reflexivity|]. split; [apply sorted_nil|]. intros k v. split; [intros []|].
        intros (Hk & s & ->). rewrite H in Hk. discriminate.
    Qed.
  End V.
End Find.

(** Every call of ConcModel.v, under any interference: it never faults, takes a bounded number of steps, and does to the trees
    it owns what the specification says. *)
From Coq Require Import Permutation.
From Verif Require Export ConcOps.

Section Calls.
  Context {K V : Type}.
  Notation tree := (rtree K V).
  Notation node := (node K V).
  Notation heap := (heap K V).
  Notation prog := (prog K V).
  Notation ent := (node * tree)%type.
  Implicit Types (h : heap) (ns C : list node) (ts : list tree) (O F : list ent) (D B : list nat).
  Context (S : list ent).
  Notation Sn := (fsts S).
  Notation St := (St S).
  Notation wp := (wp S).
  Notation lent := (lent S).
  Notation su := Datatypes.S.

  Lemma weaker_perm O O' B : Permutation O O' -> weaker (MkR O B [] []) (MkR O' B [] [] : @res K V).
  Proof. intros P. repeat split; cbn; auto using incl_refl. Qed.

  (** ** Reading *)
  Lemma children_wp R o m p v ts : r_uni R = [] -> lent R o m (Node p v ts) ->
    wp 1 (p_children m) R (fun ns R' => n_prefix m = p /\ n_value m = v /\ length ns = length ts /\
      R' = MkR (r_own R) (r_bor R) (map (pair o) (combine ns ts) ++ r_len R) []).
  Proof.
    intros Hu Hl. unfold p_children. destruct (n_kids m) as [us|a] eqn:Qm.
    - apply wp_pure; [exact I|]. intros h C D H0. destruct (lent_st _ _ _ _ _ _ _ _ H0 Hl) as (Ho & W & Dm).
      inversion Dm; subst; cbn in Qm; [|discriminate]. injection Qm as ->.
      apply wp_tau' with (R' := MkR (r_own R) (r_bor R) (map (pair o) (combine (map shallow us) us) ++ r_len R) []).
      + intros h' C' D' [I1 I2 I3 I4 I5 I6 I7]. constructor; cbn [r_own r_bor r_len r_uni]; auto; try easy.
        intros o' m' t' Hi. apply in_app_or in Hi as [Hi|Hi]; auto. apply in_map_iff in Hi as ([m1 t1] & [= <- <- <-] & Hi).
        split; auto. pose proof (in_combine_l _ _ _ _ Hi) as Hi'. apply in_map_iff in Hi' as ([p1 v1 ws] & <- & _). split.
        * left. eexists. reflexivity.
        * apply (dens_ents h' (combine (map shallow us) us)); auto. rewrite fsts_combine, snds_combine by apply map_length. apply shallow_dens.
      + intros a. cbn [r_own]. lia.
      + apply wp_ret. cbn [n_prefix n_value]. rewrite map_length. auto.
    - apply wp_pure; [exact I|]. intros h C D H0. destruct (lent_st _ _ _ _ _ _ _ _ H0 Hl) as (Ho & W & Dm).
      inversion Dm; subst; cbn in Qm; [discriminate|]. injection Qm as ->.
      eapply wp_read; [exact Hl|reflexivity|]. intros ns' El. apply wp_ret. cbn [n_prefix n_value]. auto.
  Qed.
  Lemma walk_wp path : forall R o m t, r_uni R = [] -> lent R o m t ->
    wp (length path) (p_walk path m) R (fun r R' => (exists L, R' = MkR (r_own R) (r_bor R) L []) /\
      match r with Some c => exists u, t_sub path t = Some u /\ lent R' o c u | None => t_sub path t = None end).
  Proof.
    induction path as [|i path IH]; intros R o m t Hu Hl; cbn [p_walk length].
    - apply wp_ret. destruct R as [O B L U]. cbn in Hu. subst U. split; [eauto|]. exists t. auto.
    - destruct t as [p v ts]. change (su (length path)) with (1 + length path). eapply wp_bind; [apply (children_wp R o m p v ts Hu Hl)|].
      intros ns R' (_ & _ & El & ->). cbn [t_sub t_children].
      destruct (nth_error ns i) as [c|] eqn:Qc.
      + destruct (nth_error ts i) as [tc|] eqn:Qt; [|exfalso; apply nth_error_None in Qt; assert (i < length ns) by (apply nth_error_Some; congruence); lia].
        eapply wp_mono; [apply Nat.le_refl| |apply IH with (o := o) (t := tc)]; auto.
        right. cbn [r_len]. apply in_or_app. left. apply in_map_iff. exists (c, tc). split; auto. apply nth_error_In with (n := i).
        clear - Qc Qt. revert ts i Qc Qt. induction ns as [|x ns IH]; intros [|y ts] [|i]; cbn; try discriminate; [now intros [= ->] [= ->]|apply IH].
      + apply wp_ret. split; [eauto|]. replace (nth_error ts i) with (@None tree); auto. symmetry. apply nth_error_None. apply nth_error_None in Qc. lia.
  Qed.

  (** ** Mutation below a path *)
  Definition tspec (X : Type) := tree -> tree -> option X -> list ent -> Prop.
  Definition act_wp {X} (act : node -> prog (node * option X)) (inp : list ent) (e : nat) (Rl : tspec X) : Prop :=
    forall n t, wp (2 * nodes t + e) (act n) (MkR ((n, t) :: inp) [] [] [])
      (fun r R' => exists t' out, Rl t t' (snd r) out /\ R' = MkR ((fst r, t') :: out) [] [] []).
  Fixpoint at_path {X} (path : list nat) (inp : list ent) (Rl : tspec X) : tspec X := fun t t' x out =>
    match path with
    | [] => Rl t t' x out
    | i :: path' =>
        let 'Node p v ts := t in
        match nth_error ts i with
        | Some c => exists c', at_path path' inp Rl c c' x out /\ t' = Node p v (upd_nth i c' ts)
        | None => t' = t /\ x = None /\ out = inp
        end
    end.
  Lemma combine_app {X Y} (l1 l2 : list X) (m1 m2 : list Y) : length l1 = length m1 -> combine (l1 ++ l2) (m1 ++ m2) = combine l1 m1 ++ combine l2 m2.
  Proof. revert m1. induction l1 as [|x l1 IH]; intros [|y m1]; cbn; intros E; try discriminate; auto. f_equal. apply IH. lia. Qed.
  Lemma combine_upd ns ts i c t : length ns = length ts -> i < length ns ->
    combine (upd_nth i c ns) (upd_nth i t ts) = combine (firstn i ns) (firstn i ts) ++ (c, t) :: combine (skipn (su i) ns) (skipn (su i) ts).
  Proof. intros E Hi. unfold upd_nth. rewrite combine_app by (rewrite !firstn_length; lia). reflexivity. Qed.
  Lemma combine_nth ns ts i c t : length ns = length ts -> nth_error ns i = Some c -> nth_error ts i = Some t ->
    combine ns ts = combine (firstn i ns) (firstn i ts) ++ (c, t) :: combine (skipn (su i) ns) (skipn (su i) ts).
  Proof.
    intros E Q1 Q2. rewrite <- (combine_upd ns ts i c t) by (auto; apply nth_error_Some; congruence). now rewrite !upd_nth_id by auto.
  Qed.
  Lemma upd_len {X} i (x : X) l : i < length l -> length (upd_nth i x l) = length l.
  Proof. intros H. unfold upd_nth. rewrite app_length, firstn_length. cbn [length]. rewrite skipn_length. lia. Qed.

  (** children_mut, with other things in hand *)
  Lemma cm_wp {A} n p v ts inp e (f : node * nat * list node -> prog A) Q :
    (forall ns a, length ns = length ts -> wp e (f (MkN p v (inr a), a, ns)) (MkR (combine ns ts ++ inp) [a] [] []) Q) ->
    wp (2 * nodes (Node p v ts) + 4 + e) (pbind (p_children_mut n) f) (MkR ((n, Node p v ts) :: inp) [] [] []) Q.
  Proof.
    intros H. eapply wp_bind.
    - apply (wp_frame S _ (p_children_mut n) (MkR [(n, Node p v ts)] [] [] []) (cm_post p v ts) inp [] []); try easy. apply children_mut_wp.
    - intros [[n1 a] ns] R' (R1 & (-> & El & ->) & ->). unfold plus_res. cbn [r_own r_bor r_len r_uni app]. auto.
  Qed.
  Lemma mut_wp {X} (act : node -> prog (node * option X)) inp e Rl path : act_wp act inp e Rl ->
    forall n t, wp (length path * (2 * nodes t + 5) + 2 * nodes t + e) (p_mut path act n) (MkR ((n, t) :: inp) [] [] [])
      (fun r R' => exists t' out, at_path path inp Rl t t' (snd r) out /\ R' = MkR ((fst r, t') :: out) [] [] []).
  Proof.
    intros HA. induction path as [|i path IH]; intros n t; cbn [p_mut length].
    - eapply wp_mono; [|intros ? ? X0; exact X0|apply HA]. lia.
    - destruct t as [p v ts]. set (N := nodes (Node p v ts)) in *.
      assert (HN : N = su (tnodes ts)) by reflexivity.
      eapply wp_mono with (n := 2 * N + 4 + (length path * (2 * N + 5) + 2 * N + e + 1)); [lia|intros ? ? X0; exact X0|].
      apply cm_wp. intros ns a El. destruct (nth_error ns i) as [c|] eqn:Qc.
      + destruct (nth_error ts i) as [tc|] eqn:Qt; [|exfalso; apply nth_error_None in Qt; assert (i < length ns) by (apply nth_error_Some; congruence); lia].
        assert (Hi : i < length ns) by (apply nth_error_Some; congruence).
        set (F := combine (firstn i ns) (firstn i ts) ++ combine (skipn (su i) ns) (skipn (su i) ts)).
        eapply wp_weaken with (R' := plus_res (MkR ((c, tc) :: inp) [] [] []) F [a] []).
        { unfold plus_res. cbn [r_own r_bor r_len r_uni]. apply weaker_perm. rewrite (combine_nth ns ts i c tc El Qc Qt). unfold F.
          rewrite <- !app_assoc. cbn [app]. etransitivity; [symmetry; apply Permutation_middle|]. apply perm_skip.
          rewrite (app_assoc (combine _ _)). apply Permutation_app_comm. }
        eapply wp_bind.
        { apply wp_frame; try easy. eapply wp_mono; [|intros ? ? X0; exact X0|apply (IH c tc)].
          pose proof (nth_nodes ts i tc Qt) as Hn. assert (Hm : nodes tc <= N) by lia.
          apply Nat.add_le_mono; [|lia]. apply Nat.add_le_mono; [|lia]. apply Nat.mul_le_mono_l. lia. }
        intros [c' x] R' (R1 & (tc' & out & HR & ->) & ->). cbn [plus_res r_own r_bor r_len r_uni fst snd] in *.
        eapply wp_weaken with (R' := MkR (combine (upd_nth i c' ns) (upd_nth i tc' ts) ++ out) [a] [] []).
        { apply weaker_perm. rewrite combine_upd by auto. unfold F. rewrite <- !app_assoc. cbn [app].
          etransitivity; [|apply Permutation_middle]. apply perm_skip. etransitivity; [apply Permutation_app_comm|]. rewrite <- !app_assoc. reflexivity. }
        eapply wp_back with (p := p) (v := v); [rewrite !upd_len; auto; lia|]. apply wp_ret. cbn [fst snd].
        exists (Node p v (upd_nth i tc' ts)), out. split; auto. cbn [at_path]. rewrite Qt. eauto.
      + eapply wp_mono with (n := 1); [lia|intros ? ? X0; exact X0|].
        eapply wp_back with (p := p) (v := v); [auto|]. apply wp_ret. cbn [fst snd]. exists (Node p v ts), inp. split; auto. cbn [at_path].
        replace (nth_error ts i) with (@None tree); auto. symmetry. apply nth_error_None. apply nth_error_None in Qc. lia.
  Qed.

  Lemma node_of h n p v ts O B C D : St h (MkR ((n, Node p v ts) :: O) B [] []) C D -> n_prefix n = p /\ n_value n = v.
  Proof.
    intros H. pose proof (st_O _ _ _ _ _ H) as Dn. cbn in Dn. inversion Dn as [|? ? ? ? Dm Dr]; subst. now inversion Dm.
  Qed.
  Definition set_prefix_spec (p : list K) : tspec unit := fun t t' x out => x = Some tt /\ out = [] /\ let 'Node _ v ts := t in t' = Node p v ts.
  Lemma prefix_act p : act_wp (a_prefix p) [] 0 (set_prefix_spec p).
  Proof.
    intros n [q v ts]. rewrite nodes_node. eapply wp_mono with (n := 1); [lia|intros ? ? X0; exact X0|]. unfold a_prefix.
    apply wp_pure; [exact I|]. intros h C D H0. apply node_of in H0 as [<- <-]. destruct n as [q v k]. cbn [n_prefix n_value n_kids].
    apply wp_tau' with (R' := MkR [(MkN p v k, Node p v ts)] [] [] []).
    - intros h' C' D' H1. eapply st_relabel. exact H1.
    - intros a. cbn [r_own fsts map fst]. rewrite !cnt_cons. unfold ref. cbn [n_kids]. lia.
    - apply wp_ret. exists (Node p v ts), []. cbn [fst snd]. split; [repeat split|reflexivity].
  Qed.
  Definition set_value_spec (v : option V) : tspec unit := fun t t' x out => x = Some tt /\ out = [] /\ let 'Node p _ ts := t in t' = Node p v ts.
  Lemma value_act v : act_wp (a_value v) [] 0 (set_value_spec v).
  Proof.
    intros n [q w ts]. rewrite nodes_node. eapply wp_mono with (n := 1); [lia|intros ? ? X0; exact X0|]. unfold a_value.
    apply wp_pure; [exact I|]. intros h C D H0. apply node_of in H0 as [<- <-]. destruct n as [q w k]. cbn [n_prefix n_value n_kids].
    apply wp_tau' with (R' := MkR [(MkN q v k, Node q v ts)] [] [] []).
    - intros h' C' D' H1. eapply st_relabel. exact H1.
    - intros a. cbn [r_own fsts map fst]. rewrite !cnt_cons. unfold ref. cbn [n_kids]. lia.
    - apply wp_ret. exists (Node q v ts), []. cbn [fst snd]. split; [repeat split|reflexivity].
  Qed.
  Definition insert_spec (j : nat) (u : tree) : tspec bool := fun t t' x out => out = [] /\ let 'Node p v ts := t in
    if j <=? length ts then x = Some true /\ t' = Node p v (firstn j ts ++ u :: skipn j ts) else x = Some false /\ t' = t.
  Lemma insert_act j m u : act_wp (a_insert j m) [(m, u)] (5 + nodes u) (insert_spec j u).
  Proof.
    intros n [p v ts]. unfold a_insert. eapply wp_mono with (n := 2 * nodes (Node p v ts) + 4 + (nodes u + 1)); [lia|intros ? ? X0; exact X0|].
    apply cm_wp. intros ns a El. rewrite El. unfold insert_spec. destruct (j <=? length ts) eqn:Q.
    - apply Nat.leb_le in Q. eapply wp_mono with (n := 1); [lia|intros ? ? X0; exact X0|].
      eapply wp_weaken with (R' := MkR (combine (firstn j ns ++ m :: skipn j ns) (firstn j ts ++ u :: skipn j ts) ++ []) [a] [] []).
      { apply weaker_perm. rewrite app_nil_r, combine_app by (rewrite !firstn_length; lia). cbn [combine].
        etransitivity; [|apply Permutation_middle]. etransitivity; [apply Permutation_app_comm|]. cbn [app]. apply perm_skip.
        rewrite <- combine_app by (rewrite !firstn_length; lia). now rewrite !firstn_skipn. }
      eapply wp_back with (p := p) (v := v); [rewrite !app_length; cbn [length]; rewrite !firstn_length, !skipn_length; lia|].
      apply wp_ret. cbn [fst snd]. exists (Node p v (firstn j ts ++ u :: skipn j ts)), []. auto.
    - eapply wp_weaken with (R' := plus_res (MkR [(m, u)] [] [] []) (combine ns ts) [a] []).
      { unfold plus_res. cbn [r_own r_bor r_len r_uni app]. apply weaker_perm. etransitivity; [apply Permutation_app_comm|]. reflexivity. }
      eapply wp_bind; [apply wp_frame; try easy; apply (drop_wp S (nodes u) [(m, u)]); cbn; lia|].
      intros _ R' (R1 & -> & ->). unfold plus_res. cbn [r_own r_bor r_len r_uni app].
      eapply wp_weaken with (R' := MkR (combine ns ts ++ []) [a] [] []); [rewrite app_nil_r; apply weaker_perm; reflexivity|].
      eapply wp_back with (p := p) (v := v); [auto|]. apply wp_ret. cbn [fst snd]. exists (Node p v ts), []. auto.
  Qed.
  Definition remove_spec (j : nat) : tspec node := fun t t' x out => let 'Node p v ts := t in
    match nth_error ts j with
    | Some u => exists m, x = Some m /\ out = [(m, u)] /\ t' = Node p v (firstn j ts ++ skipn (su j) ts)
    | None => x = None /\ out = [] /\ t' = t
    end.
  Lemma remove_act j : act_wp (a_remove j) [] 5 (remove_spec j).
  Proof.
    intros n [p v ts]. unfold a_remove. eapply wp_mono with (n := 2 * nodes (Node p v ts) + 4 + 1); [lia|intros ? ? X0; exact X0|].
    apply cm_wp. intros ns a El. unfold remove_spec. destruct (nth_error ns j) as [m|] eqn:Qm.
    - destruct (nth_error ts j) as [u|] eqn:Qt; [|exfalso; apply nth_error_None in Qt; assert (j < length ns) by (apply nth_error_Some; congruence); lia].
      assert (Hj : j < length ns) by (apply nth_error_Some; congruence).
      eapply wp_weaken with (R' := MkR (combine (firstn j ns ++ skipn (su j) ns) (firstn j ts ++ skipn (su j) ts) ++ [(m, u)]) [a] [] []).
      { apply weaker_perm. rewrite app_nil_r, (combine_nth ns ts j m u El Qm Qt), combine_app by (rewrite !firstn_length; lia).
        etransitivity; [symmetry; apply Permutation_middle|]. apply Permutation_cons_append. }
      eapply wp_back with (p := p) (v := v); [rewrite !app_length, !firstn_length, !skipn_length; lia|].
      apply wp_ret. cbn [fst snd]. eexists _, [(m, u)]. split; [|reflexivity]. eauto.
    - replace (nth_error ts j) with (@None tree) by (symmetry; apply nth_error_None; apply nth_error_None in Qm; lia).
      eapply wp_back with (p := p) (v := v); [auto|]. apply wp_ret. cbn [fst snd]. exists (Node p v ts), []. auto.
  Qed.

  (** ** Construction *)
  Hypothesis Hst : In (static, Node [] None []) S.
  Lemma wp_empty {A} n (k : prog A) p v O B Q : wp n k (MkR ((MkN p v (inr 0), Node p v []) :: O) B [] []) Q -> wp (su n) (PInc 0 k) (MkR O B [] []) Q.
  Proof.
    intros H. assert (Hl : lent (MkR O B [] []) static static (Node [] None [])) by (left; split; auto; apply in_or_app; auto).
    right. intros h C D H0. destruct (lent_cell _ _ _ _ _ _ _ _ 0 H0 Hl eq_refl) as (rc & ns & p0 & v0 & ts & [= <- <- <-] & Hc & Dn & _ & Hp).
    destruct (arc_clone_inv h _ 0 p v (st_inv _ _ _ _ _ H0)) as (h' & E & J & G); [rewrite app_assoc, cnt_app; lia|].
    assert (M : mono h h') by (unfold arc_clone in E; rewrite Hc in E; injection E as <-; eapply mono_upd; eauto).
    pose proof (grows_ext _ _ G) as X. exists h', k, (MkR ((MkN p v (inr 0), Node p v []) :: O) B [] []).
    split; [cbn [pstep]; now rewrite E|].
    destruct (st_ext S h h' (MkR O B [] []) C D ((MkN p v (inr 0), Node p v []) :: O) [] [] H0 X M) as (T & Fr); try easy.
    - cbn [fsts map fst app]. eapply inv_perm; [|exact J]. apply Permutation_middle.
    - intros m' t' [[= <- <-]|Hi]; auto. right. apply (den_ext h h' X). econstructor; eauto.
    - split; auto. split; auto. split; auto. intros b _ E0. assert (b <> 0) by (intros ->; lia). cbn [r_own fsts map fst] in *. rewrite cnt_cons.
      unfold ref. cbn [n_kids]. replace (0 =? b) with false by (symmetry; apply Nat.eqb_neq; auto).
      replace (hrefs h' b) with (hrefs h b); [rewrite cnt_app in E0; unfold fsts in *; lia|].
      unfold arc_clone in E. rewrite Hc in E. injection E as <-. pose proof (hrefs_upd h 0 (Some (su (su rc), ns)) b (inv_lt _ _ _ _ (st_inv _ _ _ _ _ H0) Hc)) as Q0.
      unfold ccnt in Q0 at 1. rewrite Hc in Q0. lia.
  Qed.
  Lemma wrap_wp ns p v ts : length ns = length ts ->
    wp 1 (p_wrap ns) (MkR (combine ns ts) [] [] []) (fun a R' => R' = MkR [(MkN p v (inr a), Node p v ts)] [] [] []).
  Proof.
    intros El. destruct ns as [|n ns], ts as [|t ts]; try discriminate; cbn [p_wrap combine].
    - apply (wp_empty 0 _ p v). now apply wp_ret.
    - rewrite <- (app_nil_r ((n, t) :: combine ns ts)). change ((n, t) :: combine ns ts) with (combine (n :: ns) (t :: ts)). eapply wp_new with (p := p) (v := v); [auto|].
      intros a. eapply wp_weaken with (R' := MkR [(MkN p v (inr a), Node p v (t :: ts))] [] [] []); [|now apply wp_ret].
      repeat split; cbn; auto using incl_refl. easy.
  Qed.
  Lemma from_wp t : wp (nodes t) (p_from t) (MkR [] [] [] []) (fun n R' => R' = MkR [(n, t)] [] [] []).
  Proof.
    induction t as [p v ts IH] using rtree_ind'. cbn [p_from].
    match goal with |- context [pbind (?g ts) _] => set (go := g) end.
    assert (G : wp (tnodes ts) (go ts) (MkR [] [] [] []) (fun ns R' => length ns = length ts /\ R' = MkR (combine ns ts) [] [] [])).
    { induction IH as [|t ts Ht _ IH]; cbn [go].
      - apply wp_ret. auto.
      - rewrite tnodes_cons. eapply wp_bind; [exact Ht|]. intros n R' ->. fold go.
        replace (tnodes ts) with (tnodes ts + 0) by lia. eapply wp_bind.
        + change (MkR [(n, t)] [] [] []) with (plus_res (MkR [] [] [] []) [(n, t)] [] []). apply wp_frame; try easy. exact IH.
        + intros ns R' (R1 & (El & ->) & ->). unfold plus_res. cbn [r_own r_bor r_len r_uni app].
          eapply wp_weaken; [apply weaker_perm, Permutation_app_comm|]. cbn [app]. apply wp_ret. cbn [length combine]. auto. }
    rewrite nodes_node. replace (su (tnodes ts)) with (tnodes ts + 1) by lia. eapply wp_bind; [exact G|].
    intros ns R' (El & ->). replace 1 with (1 + 0) by lia. eapply wp_bind; [apply (wrap_wp ns p v ts El)|]. intros a R' ->. now apply wp_ret.
  Qed.
End Calls.

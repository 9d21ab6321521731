(** Every call of LconcModel.v, under any interference: it never faults, takes a bounded number of steps, and does to the trees
    it owns what the specification says. *)
From Coq Require Import Permutation.
From Verif Require Export LconcOps.

Section Calls.
  Context {K V : Type}.
  Notation tree := (rtree K V).
  Notation node := (node K V).
  Notation heap := (heap K V).
  Notation prog := (prog K V).
  Notation ent := (node * tree)%type.
  Implicit Types (h : heap) (ns C : list node) (ts : list tree) (O F : list ent) (D B : list nat).
  Context (S : list ent).
  Notation Sn := (fsts S).
  Notation St := (St S).
  Notation wp := (wp S).
  Notation vlent := (vlent S).
  Notation su := Datatypes.S.

  Lemma weaker_perm O O' B : Permutation O O' -> weaker (MkR O B [] []) (MkR O' B [] [] : @res K V).
  Proof. intros P. repeat split; cbn; auto using incl_refl. Qed.

  (** ** Reading *)
  (** the children of the node in a register get an Arc *)
  Lemma own_wp n p v ts O B : wp 1 (p_own n) (MkR ((n, Node p v ts) :: O) B [] [])
    (fun n1 R' => exists a, n1 = MkN p v (inr a) /\ R' = MkR ((n1, Node p v ts) :: O) B [] []).
  Proof.
    apply wp_pure; [unfold p_own; now destruct (n_kids n)|]. intros h C D H0.
    pose proof (st_O _ _ _ _ _ H0) as Dn. cbn in Dn. inversion Dn as [|? ? ? ? Dm Dr]; subst. unfold p_own. inversion Dm; subst; cbn [n_kids].
    - eapply wp_conv with (R' := MkR (combine (map shallow ts) ts ++ O) B [] []); [exact I| | |].
      + intros h' C' D' H1. eapply st_shallow. exact H1.
      + intros a. cbn [r_own]. rewrite fsts_app, fsts_combine by apply map_length. rewrite cnt_app, cnt_shallow. cbn [fsts map fst]. rewrite cnt_cons. unfold ref. cbn. unfold fsts. lia.
      + eapply wp_new with (p := p) (v := v); [apply map_length|]. intros a. eapply wp_weaken with (R' := MkR ((MkN p v (inr a), Node p v ts) :: O) B [] []); [repeat split; cbn; auto using incl_refl; easy|].
        apply wp_ret. exists a. auto.
    - apply wp_tau, wp_ret. eexists. split; reflexivity.
  Qed.
  Definition sub_at (ts : list tree) (i : nat) (path : list nat) : option tree :=
    match nth_error ts i with Some t => t_sub path t | None => None end.
  Lemma walk_wp o path : forall R a ts i, r_uni R = [] -> vlent R o a ts ->
    wp (3 * length path + 1) (p_walk path a i) R (fun r R' => (exists L, R' = MkR (r_own R) (r_bor R) L []) /\
      match r with Some (b, j) => exists us u, vlent R' o b us /\ nth_error us j = Some u /\ sub_at ts i path = Some u | None => sub_at ts i path = None end).
  Proof.
    induction path as [|j path IH]; intros R a ts i Hu Hl; cbn [p_walk length]; unfold sub_at; cbn [t_sub].
    - eapply wp_sums; [exact Hl|]. rewrite map_length. destruct (nth_error ts i) as [t|] eqn:Q.
      + assert (Hi : i < length ts) by (apply nth_error_Some; congruence). apply Nat.ltb_lt in Hi as ->.
        apply wp_ret. split; [eauto|]. exists ts, t. auto.
      + apply nth_error_None in Q. replace (i <? length ts) with false by (symmetry; apply Nat.ltb_ge; auto). apply wp_ret. split; [eauto|]. auto.
    - replace (3 * su (length path) + 1) with (su (su (su (3 * length path + 1)))) by lia.
      eapply wp_sums; [exact Hl|]. rewrite map_length. destruct (nth_error ts i) as [t|] eqn:Q.
      + assert (Hi : i < length ts) by (apply nth_error_Some; congruence). pose proof Hi as Hi'. apply Nat.ltb_lt in Hi' as ->.
        eapply wp_force; [exact Hl|exact Hi|]. eapply wp_kids; [now left|now left|exact Q|]. intros b.
        eapply wp_mono; [apply Nat.le_refl| |apply (IH _ b (t_children t) j)]; [|reflexivity|right; exists []; now left].
        cbn [r_own r_bor r_len]. intros r R' H. exact H.
      + apply nth_error_None in Q. replace (i <? length ts) with false by (symmetry; apply Nat.ltb_ge; auto).
        eapply wp_mono with (n := 0); [lia|intros ? ? X; exact X|]. apply wp_ret. split; [eauto|]. auto.
  Qed.

  (** ** Mutation below a path *)
  Definition tspec (X : Type) := tree -> tree -> option X -> list ent -> Prop.
  Definition act_wp {X} (act : node -> prog (node * option X)) (inp : list ent) (e : nat) (Rl : tspec X) : Prop :=
    forall n t, wp (2 * nodes t + e) (act n) (MkR ((n, t) :: inp) [] [] [])
      (fun r R' => exists t' out, Rl t t' (snd r) out /\ R' = MkR ((fst r, t') :: out) [] [] []).
  Fixpoint at_path {X} (path : list nat) (inp : list ent) (Rl : tspec X) : tspec X := fun t t' x out =>
    match path with
    | [] => Rl t t' x out
    | i :: path' =>
        let 'Node p v ts := t in
        match nth_error ts i with
        | Some c => exists c', at_path path' inp Rl c c' x out /\ t' = Node p v (upd_nth i c' ts)
        | None => t' = t /\ x = None /\ out = inp
        end
    end.
  Lemma combine_app {X Y} (l1 l2 : list X) (m1 m2 : list Y) : length l1 = length m1 -> combine (l1 ++ l2) (m1 ++ m2) = combine l1 m1 ++ combine l2 m2.
  Proof. revert m1. induction l1 as [|x l1 IH]; intros [|y m1]; cbn; intros E; try discriminate; auto. f_equal. apply IH. lia. Qed.
  Lemma combine_upd ns ts i c t : length ns = length ts -> i < length ns ->
    combine (upd_nth i c ns) (upd_nth i t ts) = combine (firstn i ns) (firstn i ts) ++ (c, t) :: combine (skipn (su i) ns) (skipn (su i) ts).
  Proof. intros E Hi. unfold upd_nth. rewrite combine_app by (rewrite !firstn_length; lia). reflexivity. Qed.
  Lemma combine_nth ns ts i c t : length ns = length ts -> nth_error ns i = Some c -> nth_error ts i = Some t ->
    combine ns ts = combine (firstn i ns) (firstn i ts) ++ (c, t) :: combine (skipn (su i) ns) (skipn (su i) ts).
  Proof.
    intros E Q1 Q2. rewrite <- (combine_upd ns ts i c t) by (auto; apply nth_error_Some; congruence). now rewrite !upd_nth_id by auto.
  Qed.
  Lemma upd_len {X} i (x : X) l : i < length l -> length (upd_nth i x l) = length l.
  Proof. intros H. unfold upd_nth. rewrite app_length, firstn_length. cbn [length]. rewrite skipn_length. lia. Qed.

  (** children_mut, with other things in hand *)
  Lemma cm_wp {A} n p v ts inp e (f : node * nat * list node -> prog A) Q :
    (forall ns a, length ns = length ts -> wp e (f (MkN p v (inr a), a, ns)) (MkR (combine ns ts ++ inp) [a] [] []) Q) ->
    wp (2 * nodes (Node p v ts) + 4 + e) (pbind (p_children_mut n) f) (MkR ((n, Node p v ts) :: inp) [] [] []) Q.
  Proof.
    intros H. eapply wp_bind.
    - apply (wp_frame S _ (p_children_mut n) (MkR [(n, Node p v ts)] [] [] []) (cm_post p v ts) inp [] []); try easy. apply children_mut_wp.
    - intros [[n1 a] ns] R' (R1 & (-> & El & ->) & ->). unfold plus_res. cbn [r_own r_bor r_len r_uni app]. auto.
  Qed.
  Lemma mut_wp {X} (act : node -> prog (node * option X)) inp e Rl path : act_wp act inp e Rl ->
    forall n t, wp (length path * (2 * nodes t + 5) + 2 * nodes t + e) (p_mut path act n) (MkR ((n, t) :: inp) [] [] [])
      (fun r R' => exists t' out, at_path path inp Rl t t' (snd r) out /\ R' = MkR ((fst r, t') :: out) [] [] []).
  Proof.
    intros HA. induction path as [|i path IH]; intros n t; cbn [p_mut length].
    - eapply wp_mono; [|intros ? ? X0; exact X0|apply HA]. lia.
    - destruct t as [p v ts]. set (N := nodes (Node p v ts)) in *.
      assert (HN : N = su (tnodes ts)) by reflexivity.
      eapply wp_mono with (n := 2 * N + 4 + (length path * (2 * N + 5) + 2 * N + e + 1)); [lia|intros ? ? X0; exact X0|].
      apply cm_wp. intros ns a El. destruct (nth_error ns i) as [c|] eqn:Qc.
      + destruct (nth_error ts i) as [tc|] eqn:Qt; [|exfalso; apply nth_error_None in Qt; assert (i < length ns) by (apply nth_error_Some; congruence); lia].
        assert (Hi : i < length ns) by (apply nth_error_Some; congruence).
        set (F := combine (firstn i ns) (firstn i ts) ++ combine (skipn (su i) ns) (skipn (su i) ts)).
        eapply wp_weaken with (R' := plus_res (MkR ((c, tc) :: inp) [] [] []) F [a] []).
        { unfold plus_res. cbn [r_own r_bor r_len r_uni]. apply weaker_perm. rewrite (combine_nth ns ts i c tc El Qc Qt). unfold F.
          rewrite <- !app_assoc. cbn [app]. etransitivity; [symmetry; apply Permutation_middle|]. apply perm_skip.
          rewrite (app_assoc (combine _ _)). apply Permutation_app_comm. }
        eapply wp_bind.
        { apply wp_frame; try easy. eapply wp_mono; [|intros ? ? X0; exact X0|apply (IH c tc)].
          pose proof (nth_nodes ts i tc Qt) as Hn. assert (Hm : nodes tc <= N) by lia.
          apply Nat.add_le_mono; [|lia]. apply Nat.add_le_mono; [|lia]. apply Nat.mul_le_mono_l. lia. }
        intros [c' x] R' (R1 & (tc' & out & HR & ->) & ->). cbn [plus_res r_own r_bor r_len r_uni fst snd] in *.
        eapply wp_weaken with (R' := MkR (combine (upd_nth i c' ns) (upd_nth i tc' ts) ++ out) [a] [] []).
        { apply weaker_perm. rewrite combine_upd by auto. unfold F. rewrite <- !app_assoc. cbn [app].
          etransitivity; [|apply Permutation_middle]. apply perm_skip. etransitivity; [apply Permutation_app_comm|]. rewrite <- !app_assoc. reflexivity. }
        eapply wp_back with (p := p) (v := v); [rewrite !upd_len; auto; lia|]. apply wp_ret. cbn [fst snd].
        exists (Node p v (upd_nth i tc' ts)), out. split; auto. cbn [at_path]. rewrite Qt. eauto.
      + eapply wp_mono with (n := 1); [lia|intros ? ? X0; exact X0|].
        eapply wp_back with (p := p) (v := v); [auto|]. apply wp_ret. cbn [fst snd]. exists (Node p v ts), inp. split; auto. cbn [at_path].
        replace (nth_error ts i) with (@None tree); auto. symmetry. apply nth_error_None. apply nth_error_None in Qc. lia.
  Qed.

  Lemma node_of h n p v ts O B C D : St h (MkR ((n, Node p v ts) :: O) B [] []) C D -> n_prefix n = p /\ n_value n = v.
  Proof.
    intros H. pose proof (st_O _ _ _ _ _ H) as Dn. cbn in Dn. inversion Dn as [|? ? ? ? Dm Dr]; subst. now inversion Dm.
  Qed.
  Definition set_prefix_spec (p : list K) : tspec unit := fun t t' x out => x = Some tt /\ out = [] /\ let 'Node _ v ts := t in t' = Node p v ts.
  Lemma prefix_act p : act_wp (a_prefix p) [] 0 (set_prefix_spec p).
  Proof.
    intros n [q v ts]. rewrite nodes_node. eapply wp_mono with (n := 1); [lia|intros ? ? X0; exact X0|]. unfold a_prefix.
    apply wp_pure; [exact I|]. intros h C D H0. apply node_of in H0 as [<- <-]. destruct n as [q v k]. cbn [n_prefix n_value n_kids].
    apply wp_tau' with (R' := MkR [(MkN p v k, Node p v ts)] [] [] []).
    - intros h' C' D' H1. eapply st_relabel. exact H1.
    - intros a. cbn [r_own fsts map fst]. rewrite !cnt_cons. unfold ref. cbn [n_kids]. lia.
    - apply wp_ret. exists (Node p v ts), []. cbn [fst snd]. split; [repeat split|reflexivity].
  Qed.
  Definition set_value_spec (v : option V) : tspec unit := fun t t' x out => x = Some tt /\ out = [] /\ let 'Node p _ ts := t in t' = Node p v ts.
  Lemma value_act v : act_wp (a_value v) [] 0 (set_value_spec v).
  Proof.
    intros n [q w ts]. rewrite nodes_node. eapply wp_mono with (n := 1); [lia|intros ? ? X0; exact X0|]. unfold a_value.
    apply wp_pure; [exact I|]. intros h C D H0. apply node_of in H0 as [<- <-]. destruct n as [q w k]. cbn [n_prefix n_value n_kids].
    apply wp_tau' with (R' := MkR [(MkN q v k, Node q v ts)] [] [] []).
    - intros h' C' D' H1. eapply st_relabel. exact H1.
    - intros a. cbn [r_own fsts map fst]. rewrite !cnt_cons. unfold ref. cbn [n_kids]. lia.
    - apply wp_ret. exists (Node q v ts), []. cbn [fst snd]. split; [repeat split|reflexivity].
  Qed.
  Definition insert_spec (j : nat) (u : tree) : tspec bool := fun t t' x out => out = [] /\ let 'Node p v ts := t in
    if j <=? length ts then x = Some true /\ t' = Node p v (firstn j ts ++ u :: skipn j ts) else x = Some false /\ t' = t.
  Lemma insert_act j m u : act_wp (a_insert j m) [(m, u)] (5 + nodes u) (insert_spec j u).
  Proof.
    intros n [p v ts]. unfold a_insert. eapply wp_mono with (n := 2 * nodes (Node p v ts) + 4 + (nodes u + 1)); [lia|intros ? ? X0; exact X0|].
    apply cm_wp. intros ns a El. rewrite El. unfold insert_spec. destruct (j <=? length ts) eqn:Q.
    - apply Nat.leb_le in Q. eapply wp_mono with (n := 1); [lia|intros ? ? X0; exact X0|].
      eapply wp_weaken with (R' := MkR (combine (firstn j ns ++ m :: skipn j ns) (firstn j ts ++ u :: skipn j ts) ++ []) [a] [] []).
      { apply weaker_perm. rewrite app_nil_r, combine_app by (rewrite !firstn_length; lia). cbn [combine].
        etransitivity; [|apply Permutation_middle]. etransitivity; [apply Permutation_app_comm|]. cbn [app]. apply perm_skip.
        rewrite <- combine_app by (rewrite !firstn_length; lia). now rewrite !firstn_skipn. }
      eapply wp_back with (p := p) (v := v); [rewrite !app_length; cbn [length]; rewrite !firstn_length, !skipn_length; lia|].
      apply wp_ret. cbn [fst snd]. exists (Node p v (firstn j ts ++ u :: skipn j ts)), []. auto.
    - eapply wp_weaken with (R' := plus_res (MkR [(m, u)] [] [] []) (combine ns ts) [a] []).
      { unfold plus_res. cbn [r_own r_bor r_len r_uni app]. apply weaker_perm. etransitivity; [apply Permutation_app_comm|]. reflexivity. }
      eapply wp_bind; [apply wp_frame; try easy; apply (drop_wp S (nodes u) [(m, u)]); cbn; lia|].
      intros _ R' (R1 & -> & ->). unfold plus_res. cbn [r_own r_bor r_len r_uni app].
      eapply wp_weaken with (R' := MkR (combine ns ts ++ []) [a] [] []); [rewrite app_nil_r; apply weaker_perm; reflexivity|].
      eapply wp_back with (p := p) (v := v); [auto|]. apply wp_ret. cbn [fst snd]. exists (Node p v ts), []. auto.
  Qed.
  Definition remove_spec (j : nat) : tspec node := fun t t' x out => let 'Node p v ts := t in
    match nth_error ts j with
    | Some u => exists m, x = Some m /\ out = [(m, u)] /\ t' = Node p v (firstn j ts ++ skipn (su j) ts)
    | None => x = None /\ out = [] /\ t' = t
    end.
  Lemma remove_act j : act_wp (a_remove j) [] 5 (remove_spec j).
  Proof.
    intros n [p v ts]. unfold a_remove. eapply wp_mono with (n := 2 * nodes (Node p v ts) + 4 + 1); [lia|intros ? ? X0; exact X0|].
    apply cm_wp. intros ns a El. unfold remove_spec. destruct (nth_error ns j) as [m|] eqn:Qm.
    - destruct (nth_error ts j) as [u|] eqn:Qt; [|exfalso; apply nth_error_None in Qt; assert (j < length ns) by (apply nth_error_Some; congruence); lia].
      assert (Hj : j < length ns) by (apply nth_error_Some; congruence).
      eapply wp_weaken with (R' := MkR (combine (firstn j ns ++ skipn (su j) ns) (firstn j ts ++ skipn (su j) ts) ++ [(m, u)]) [a] [] []).
      { apply weaker_perm. rewrite app_nil_r, (combine_nth ns ts j m u El Qm Qt), combine_app by (rewrite !firstn_length; lia).
        etransitivity; [symmetry; apply Permutation_middle|]. apply Permutation_cons_append. }
      eapply wp_back with (p := p) (v := v); [rewrite !app_length, !firstn_length, !skipn_length; lia|].
      apply wp_ret. cbn [fst snd]. eexists _, [(m, u)]. split; [|reflexivity]. eauto.
    - replace (nth_error ts j) with (@None tree) by (symmetry; apply nth_error_None; apply nth_error_None in Qm; lia).
      eapply wp_back with (p := p) (v := v); [auto|]. apply wp_ret. cbn [fst snd]. exists (Node p v ts), []. auto.
  Qed.

  (** ** Construction *)
  Lemma from_wp t : wp (nodes t) (p_from t) (MkR [] [] [] []) (fun n R' => R' = MkR [(n, t)] [] [] []).
  Proof.
    induction t as [p v ts IH] using rtree_ind'. cbn [p_from].
    match goal with |- context [pbind (?g ts) _] => set (go := g) end.
    assert (G : wp (tnodes ts) (go ts) (MkR [] [] [] []) (fun ns R' => length ns = length ts /\ R' = MkR (combine ns ts) [] [] [])).
    { induction IH as [|t ts Ht _ IH]; cbn [go].
      - apply wp_ret. auto.
      - rewrite tnodes_cons. eapply wp_bind; [exact Ht|]. intros n R' ->. fold go.
        replace (tnodes ts) with (tnodes ts + 0) by lia. eapply wp_bind.
        + change (MkR [(n, t)] [] [] []) with (plus_res (MkR [] [] [] []) [(n, t)] [] []). apply wp_frame; try easy. exact IH.
        + intros ns R' (R1 & (El & ->) & ->). unfold plus_res. cbn [r_own r_bor r_len r_uni app].
          eapply wp_weaken; [apply weaker_perm, Permutation_app_comm|]. cbn [app]. apply wp_ret. cbn [length combine]. auto. }
    rewrite nodes_node. replace (su (tnodes ts)) with (tnodes ts + 1) by lia. eapply wp_bind; [exact G|].
    intros ns R' (El & ->). rewrite <- (app_nil_r (combine ns ts)). eapply wp_new with (p := p) (v := v); [exact El|]. intros a.
    eapply wp_weaken with (R' := MkR [(MkN p v (inr a), Node p v ts)] [] [] []); [repeat split; cbn; auto using incl_refl; easy|]. now apply wp_ret.
  Qed.
End Calls.

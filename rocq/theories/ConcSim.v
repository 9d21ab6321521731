(** A call on the registers of a thread. *)
From Coq Require Import Permutation.
From Verif Require Export ConcCalls.

Section Regs.
  Context {X Y : Type} (f : X -> Y).
  Definition rmap (z : regs X) : regs Y := map (option_map f) z.
  Lemma rmap_nth z i : nth_error (rmap z) i = option_map (option_map f) (nth_error z i).
  Proof. apply nth_error_map. Qed.
  Lemma rmap_get z i : rget i (rmap z) = option_map f (rget i z).
  Proof. unfold rget. rewrite rmap_nth. now destruct (nth_error z i) as [[x|]|]. Qed.
  Lemma rmap_upd z i x : rmap (upd_nth i x z) = upd_nth i (option_map f x) (rmap z).
  Proof. unfold upd_nth, rmap. rewrite map_app, firstn_map. cbn [map]. now rewrite skipn_map. Qed.
  Lemma rmap_take z i : rtake i (rmap z) = option_map (fun '(x, z1) => (f x, rmap z1)) (rtake i z).
  Proof. unfold rtake. rewrite rmap_get. destruct (rget i z) as [x|]; cbn [option_map]; auto. now rewrite rmap_upd. Qed.
  Lemma rmap_put z i x : rput i (f x) (rmap z) = option_map rmap (rput i x z).
  Proof. unfold rput. rewrite rmap_nth. destruct (nth_error z i) as [[y|]|]; cbn [option_map]; auto. now rewrite rmap_upd. Qed.
  Lemma rmap_takes l : forall z, rtakes l (rmap z) = option_map (fun '(xs, z1) => (map f xs, rmap z1)) (rtakes l z).
  Proof.
    induction l as [|i l IH]; intros z; cbn [rtakes]; auto. rewrite rmap_take. destruct (rtake i z) as [[x z1]|]; cbn [option_map]; auto.
    rewrite IH. now destruct (rtakes l z1) as [[xs z2]|].
  Qed.
End Regs.

Section Own.
  Context {X : Type}.
  Implicit Types (z : regs X).
  Lemma held_cons o z : held (o :: z) = olist o ++ held z.
  Proof. now destruct o. Qed.
  Lemma held_app z z' : held (z ++ z') = held z ++ held z'.
  Proof. apply flat_map_app. Qed.
  Lemma held_upd z i o x : nth_error z i = Some o -> Permutation (held (upd_nth i x z) ++ olist o) (olist x ++ held z).
  Proof.
    intros H. pose proof (f_equal held (nth_split3 z i o H)) as E. rewrite E. unfold upd_nth. rewrite !held_app, !held_cons. rewrite <- !app_assoc.
    generalize (held (firstn i z)) (held (skipn (S i) z)) (olist x) (olist o). intros A B X0 O0.
    rewrite (Permutation_app_comm B O0). rewrite !app_assoc. apply Permutation_app_tail. apply Permutation_app_tail. apply Permutation_app_comm.
  Qed.
  Lemma held_put z i x : nth_error z i = Some None -> Permutation (held (upd_nth i (Some x) z)) (x :: held z).
  Proof. intros H. pose proof (held_upd z i None (Some x) H) as P. cbn in P. now rewrite app_nil_r in P. Qed.
  Lemma held_none z i x : rget i z = Some x -> Permutation (held z) (x :: held (upd_nth i None z)).
  Proof.
    unfold rget. destruct (nth_error z i) as [[y|]|] eqn:Q; try discriminate. intros [= ->]. pose proof (held_upd z i _ None Q) as P. cbn in P.
    rewrite <- P. symmetry. apply Permutation_cons_append.
  Qed.
  Lemma held_take z i x z1 : rtake i z = Some (x, z1) -> Permutation (held z) (x :: held z1).
  Proof. unfold rtake. destruct (rget i z) as [y|] eqn:Q; [|discriminate]. intros [= -> <-]. now apply held_none. Qed.
  Lemma held_set z i x y : rget i z = Some x -> Permutation (held (upd_nth i (Some y) z)) (y :: held (upd_nth i None z)).
  Proof.
    intros G. pose proof (held_none z i x G) as P0. unfold rget in G. destruct (nth_error z i) as [[w|]|] eqn:Q; try discriminate. injection G as ->.
    pose proof (held_upd z i _ (Some y) Q) as P. cbn in P. rewrite P0 in P. rewrite <- Permutation_cons_append in P.
    rewrite (perm_swap y x) in P || idtac. apply Permutation_cons_inv with (a := x). rewrite P. apply perm_swap.
  Qed.
  Lemma held_takes l : forall z xs z1, rtakes l z = Some (xs, z1) -> Permutation (held z) (xs ++ held z1).
  Proof.
    induction l as [|i l IH]; intros z xs z1; cbn [rtakes]; [intros [= <- <-]; auto|].
    destruct (rtake i z) as [[x z2]|] eqn:Q; [|discriminate]. destruct (rtakes l z2) as [[ys z3]|] eqn:Q2; [|discriminate].
    intros [= <- <-]. rewrite (held_take _ _ _ _ Q). cbn [app]. apply perm_skip. eauto.
  Qed.
  Lemma held_rput z j x z1 : rput j x z = Some z1 -> Permutation (held z1) (x :: held z).
  Proof. unfold rput. destruct (nth_error z j) as [[?|]|] eqn:Q; try discriminate. intros [= <-]. now apply held_put. Qed.
End Own.

Section Sim.
  Context {K V : Type}.
  Notation tree := (rtree K V).
  Notation node := (node K V).
  Notation heap := (heap K V).
  Notation prog := (prog K V).
  Notation ent := (node * tree)%type.
  Implicit Types (ns C : list node) (ts : list tree) (O F : list ent) (z : regs ent).
  Context (G : list ent).
  (** the shared trees, after the one that all childless nodes share *)
  Notation S := ((static, Node [] None []) :: G).
  Notation wp := (wp S).
  Notation lent := (lent S).
  Notation su := Datatypes.S.
  Notation fs := (rmap fst).
  Notation ss := (rmap snd).

  Lemma rnodes_held z : rnodes (ss z) = tnodes (snds (held z)).
  Proof.
    induction z as [|[[n t]|] z IH]; cbn [rmap map option_map held flat_map olist app].
    - reflexivity.
    - unfold rnodes in *. cbn [map list_sum fold_right]. cbn [snd snds map]. rewrite tnodes_cons. f_equal. exact IH.
    - exact IH.
  Qed.
  Lemma tnodes_perm ts us : Permutation ts us -> tnodes ts = tnodes us.
  Proof. induction 1; rewrite ?tnodes_cons; lia. Qed.
  Lemma held_nodes z x l : Permutation (held z) (x :: l) -> nodes (snd x) + tnodes (snds l) = rnodes (ss z).
  Proof. intros P. rewrite rnodes_held. apply (Permutation_map snd) in P. unfold snds. rewrite (tnodes_perm _ _ P). reflexivity. Qed.
  Lemma get_nodes z i n t : rget i z = Some (n, t) -> nodes t <= rnodes (ss z).
  Proof. intros H. apply held_none in H. apply held_nodes in H. cbn [snd] in H. lia. Qed.

  (** what [at_path] means *)
  Lemma at_path_sub {X} path : forall (inp : list ent) (Rl : tspec X) t t' x out, at_path path inp Rl t t' x out ->
    match t_sub path t with
    | Some u => exists u', Rl u u' x out /\ (u' = u -> t' = t) /\
                  (forall pact o, pact u = Some (u', o) -> tmut path pact t = Some (t', o)) /\ (forall pact, pact u = None -> tmut path pact t = None)
    | None => t' = t /\ x = None /\ out = inp /\ forall pact, tmut path pact t = None
    end.
  Proof.
    induction path as [|i path IH]; intros inp Rl t t' x out; cbn [at_path t_sub tmut].
    - intros H. exists t'. auto 6.
    - destruct t as [p v ts]. cbn [t_children]. destruct (nth_error ts i) as [c|] eqn:Q.
      + intros (c' & H & ->). apply IH in H. destruct (t_sub path c) as [u|].
        * destruct H as (u' & HR & Hid & H1 & H2). exists u'. split; auto. split; [|split].
          -- intros E. rewrite (Hid E). f_equal. now apply upd_nth_id.
          -- intros pact o E. rewrite (H1 _ _ E). reflexivity.
          -- intros pact E. now rewrite (H2 _ E).
        * destruct H as (-> & -> & -> & H). split; [f_equal; now apply upd_nth_id|]. split; auto. split; auto. intros pact. now rewrite H.
      + intros (-> & -> & ->). auto.
  Qed.

  Definition call_post (o : cop K V) z (r : regs node * answer K V) (R : res) : Prop :=
    exists z', fst r = fs z' /\ vcall (snds G) o (ss z) = (ss z', snd r) /\ R = MkR (held z') [] [] [].
  Definition is_slot (o : cop K V) : bool := match o with CSend _ _ | CRecv _ _ | CPeek _ _ => true | _ => false end.

  Lemma bad_wp n o z : vcall (snds G) o (ss z) = (ss z, ABad) -> wp n (p_ret (fs z) ABad) (MkR (held z) [] [] []) (call_post o z).
  Proof. intros E. apply wp_ret. exists z. auto. Qed.
  Lemma pick_lent z x n : pick (fsts G) (fs z) x = Some n -> exists t, vpick (snds G) (ss z) x = Some t /\ lent (MkR (held z) [] [] []) n n t.
  Proof.
    destruct x as [i|g]; cbn [pick vpick].
    - rewrite !rmap_get. destruct (rget i z) as [[m t]|] eqn:Q; [|discriminate]. intros [= ->]. exists t. split; auto. left. split; auto.
      cbn [r_own]. apply in_or_app. right. eapply Permutation_in; [symmetry; apply (held_none z i _ Q)|]. now left.
    - unfold fsts, snds. rewrite !nth_error_map. destruct (nth_error G g) as [[m t]|] eqn:Q; [|discriminate]. intros [= ->]. exists t. split; auto. left. split; auto.
      cbn [r_own]. right. apply in_or_app. left. eapply nth_error_In; eauto.
  Qed.
  Lemma pick_none z x : pick (fsts G) (fs z) x = None -> vpick (snds G) (ss z) x = None.
  Proof.
    destruct x as [i|g]; cbn [pick vpick].
    - rewrite !rmap_get. now destruct (rget i z).
    - unfold fsts, snds. rewrite !nth_error_map. now destruct (nth_error G g).
  Qed.
  Lemma set_wp z i n t x {A} N (p : prog A) O B Q : rget i z = Some x -> wp N p (MkR ((n, t) :: held (upd_nth i None z) ++ O) B [] []) Q ->
    wp N p (MkR (held (upd_nth i (Some (n, t)) z) ++ O) B [] []) Q.
  Proof. intros H W. eapply wp_weaken; [|exact W]. apply weaker_perm. rewrite (held_set z i x (n, t) H). reflexivity. Qed.

  (** a mutation below a path of register [i] *)
  Lemma reg_mut_wp {X} (act : node -> prog (node * option X)) inp e Rl path z i n t (f : node * option X -> prog (regs node * answer K V)) Q :
    act_wp S act inp e Rl -> rget i z = Some (n, t) ->
    (forall n' t' x out, at_path path inp Rl t t' x out ->
      wp 0 (f (n', x)) (MkR ((n', t') :: out ++ held (upd_nth i None z)) [] [] []) Q) ->
    wp (length path * (2 * nodes t + 5) + 2 * nodes t + e) (pbind (p_mut path act n) f) (MkR (held z ++ inp) [] [] []) Q.
  Proof.
    intros HA Hg Hf. eapply wp_weaken with (R' := plus_res (MkR ((n, t) :: inp) [] [] []) (held (upd_nth i None z)) [] []).
    { unfold plus_res. cbn [r_own r_bor r_len r_uni app]. apply weaker_perm. rewrite (held_none z i _ Hg). cbn [app]. apply perm_skip. apply Permutation_app_comm. }
    rewrite <- (Nat.add_0_r (length path * _ + _ + e)). eapply wp_bind.
    - apply wp_frame; try easy. apply (mut_wp S act inp e Rl path HA n t).
    - intros [n' x] R' (R1 & (t' & out & Hp & ->) & ->). unfold plus_res. cbn [r_own r_bor r_len r_uni app fst snd] in *. eauto.
  Qed.

  Lemma le_work o z n : n <= rnodes (ss z) -> length (path_of o) * (2 * n + 5) + 2 * n + (5 + rnodes (ss z)) <= work o (ss z) - 2.
  Proof.
    intros H. unfold work. set (N := rnodes (ss z)) in *. set (l := length (path_of o)).
    assert (l * (2 * n + 5) <= l * (2 * N + 6)) by (apply Nat.mul_le_mono_l; lia). rewrite Nat.mul_add_distr_r. lia.
  Qed.
  Lemma work_ge o z : length (path_of o) + 10 + rnodes (ss z) + arg_nodes o <= work o (ss z).
  Proof.
    unfold work. set (N := rnodes (ss z)). set (l := length (path_of o)). rewrite Nat.mul_add_distr_r.
    assert (l * 1 <= l * (2 * N + 6)) by (apply Nat.mul_le_mono_l; lia). lia.
  Qed.

  Theorem code_wp o z : is_slot o = false ->
    wp (work o (ss z) - 2) (code (fsts G) o (fs z)) (MkR (held z) [] [] []) (call_post o z).
  Proof.
    assert (Hst : In (static, Node [] None []) S) by now left.
    intros Hs. pose proof (work_ge o z) as Hw. destruct o as [j|p v src j|t j|x path j|x path|i|i j|i path p|i path v|i path pos src|i path pos j|i x|x j|x j]; try discriminate;
      cbn [code path_of arg_nodes] in *; clear Hs.
    - (* CEmpty *)
      rewrite rmap_nth. destruct (nth_error z j) as [[e|]|] eqn:Q; cbn [option_map].
      1, 3: apply bad_wp; cbn [vcall stored]; unfold rput; rewrite rmap_nth, Q; reflexivity.
      eapply wp_mono with (n := 1); [lia|intros ? ? X0; exact X0|]. apply wp_empty with (p := []) (v := None); auto.
      eapply wp_weaken with (R' := MkR (held (upd_nth j (Some (MkN [] None (inr 0), Node [] None [])) z)) [] [] []); [apply weaker_perm; symmetry; now apply held_put|].
      apply wp_ret. eexists. cbn [fst snd]. split; [|split; [|reflexivity]].
      + now rewrite rmap_upd.
      + cbn [vcall stored]. unfold rput. rewrite rmap_nth, Q. cbn [option_map]. now rewrite rmap_upd.
    - (* CNew *)
      rewrite rmap_takes. destruct (rtakes src z) as [[xs z1]|] eqn:Q; cbn [option_map].
      2:{ apply bad_wp. cbn [vcall]. rewrite rmap_takes, Q. reflexivity. }
      rewrite rmap_nth. destruct (nth_error z1 j) as [[e|]|] eqn:Qj; cbn [option_map].
      1, 3: apply bad_wp; cbn [vcall]; rewrite rmap_takes, Q; cbn [option_map]; unfold rput; rewrite rmap_nth, Qj; reflexivity.
      eapply wp_mono with (n := 1 + 0); [lia|intros ? ? X0; exact X0|].
      eapply wp_weaken with (R' := plus_res (MkR xs [] [] []) (held z1) [] []); [unfold plus_res; cbn [r_own r_bor r_len r_uni app]; apply weaker_perm, (held_takes _ _ _ _ Q)|].
      eapply wp_bind with (Q1 := fun a R => exists R1, R1 = MkR [(MkN p v (inr a), Node p v (snds xs))] [] [] [] /\ R = plus_res R1 (held z1) [] []).
      { apply (wp_frame S 1 _ (MkR xs [] [] []) (fun a R => R = MkR [(MkN p v (inr a), Node p v (snds xs))] [] [] [])); try easy.
        pose proof (wrap_wp S Hst (fsts xs) p v (snds xs)) as W. rewrite ents_combine in W. apply W. unfold fsts, snds. now rewrite !map_length. }
      intros a R' (R1 & -> & ->). unfold plus_res. cbn [r_own r_bor r_len r_uni app].
      eapply wp_weaken with (R' := MkR (held (upd_nth j (Some (MkN p v (inr a), Node p v (snds xs))) z1)) [] [] []); [apply weaker_perm; symmetry; now apply held_put|].
      apply wp_ret. eexists. cbn [fst snd]. split; [|split; [|reflexivity]].
      + now rewrite rmap_upd.
      + cbn [vcall]. rewrite rmap_takes, Q. cbn [option_map]. unfold rput. rewrite rmap_nth, Qj. cbn [option_map stored]. now rewrite rmap_upd.
    - (* CFrom *)
      rewrite rmap_nth. destruct (nth_error z j) as [[e|]|] eqn:Q; cbn [option_map].
      1, 3: apply bad_wp; cbn [vcall stored]; unfold rput; rewrite rmap_nth, Q; reflexivity.
      eapply wp_mono with (n := nodes t + 0); [lia|intros ? ? X0; exact X0|].
      change (MkR (held z) [] [] []) with (plus_res (MkR [] [] [] []) (held z) [] []).
      eapply wp_bind; [apply wp_frame; try easy; apply (from_wp S Hst t)|].
      intros n R' (R1 & -> & ->). unfold plus_res. cbn [r_own r_bor r_len r_uni app].
      eapply wp_weaken with (R' := MkR (held (upd_nth j (Some (n, t)) z)) [] [] []); [apply weaker_perm; symmetry; now apply held_put|].
      apply wp_ret. eexists. cbn [fst snd]. split; [|split; [|reflexivity]].
      + now rewrite rmap_upd.
      + cbn [vcall]. unfold rput. rewrite rmap_nth, Q. cbn [option_map stored]. now rewrite rmap_upd.
    - (* CGet *)
      destruct (pick (fsts G) (fs z) x) as [n|] eqn:Qx.
      2:{ apply bad_wp. cbn [vcall]. now rewrite (pick_none _ _ Qx). }
      destruct (pick_lent z x n Qx) as (t & Qt & Hl). rewrite rmap_nth. destruct (nth_error z j) as [[e|]|] eqn:Q; cbn [option_map].
      1, 3: apply bad_wp; cbn [vcall]; rewrite Qt; destruct (t_sub path t); [|reflexivity]; unfold rput; rewrite rmap_nth, Q; reflexivity.
      eapply wp_mono with (n := length path + 1); [lia|intros ? ? X0; exact X0|]. eapply wp_bind; [apply (walk_wp S path _ n n t); auto|].
      intros [c|] R' ((L & ->) & H).
      + destruct H as (u & Hu & Hc). replace 1 with (length [c] + 0) by reflexivity. eapply wp_bind.
        { apply (clone_wp S [c] [u] _ n); auto. cbn [combine]. intros m u' [[= <- <-]|[]]. exact Hc. }
        cbn [r_own r_bor r_len combine app]. intros _ R' ->.
        eapply wp_weaken with (R' := MkR (held (upd_nth j (Some (c, u)) z)) [] [] []).
        { repeat split; cbn [r_own r_bor r_len r_uni]; auto using incl_refl; [symmetry; now apply held_put|easy]. }
        apply wp_ret. eexists. cbn [fst snd]. split; [|split; [|reflexivity]].
        * now rewrite rmap_upd.
        * cbn [vcall]. rewrite Qt, Hu. unfold rput. rewrite rmap_nth, Q. cbn [option_map stored]. now rewrite rmap_upd.
      + eapply wp_weaken with (R' := MkR (held z) [] [] []); [repeat split; cbn [r_own r_bor r_len r_uni]; auto using incl_refl; easy|].
        apply bad_wp. cbn [vcall]. now rewrite Qt, H.
    - (* CLook *)
      destruct (pick (fsts G) (fs z) x) as [n|] eqn:Qx.
      2:{ apply bad_wp. cbn [vcall]. now rewrite (pick_none _ _ Qx). }
      destruct (pick_lent z x n Qx) as (t & Qt & Hl).
      eapply wp_mono with (n := length path + (1 + 0)); [lia|intros ? ? X0; exact X0|]. eapply wp_bind; [apply (walk_wp S path _ n n t); auto|].
      intros [c|] R' ((L & ->) & H).
      + destruct H as ([p v ts] & Hu & Hc). eapply wp_bind; [apply (children_wp S _ n c p v ts); [reflexivity|exact Hc]|].
        cbn [r_own r_bor r_len]. intros ns R' (<- & <- & El & ->).
        eapply wp_weaken with (R' := MkR (held z) [] [] []); [repeat split; cbn [r_own r_bor r_len r_uni]; auto using incl_refl; easy|].
        apply wp_ret. exists z. cbn [fst snd]. split; auto. split; auto. cbn [vcall]. rewrite Qt, Hu, El. reflexivity.
      + eapply wp_weaken with (R' := MkR (held z) [] [] []); [repeat split; cbn [r_own r_bor r_len r_uni]; auto using incl_refl; easy|].
        apply bad_wp. cbn [vcall]. now rewrite Qt, H.
    - (* CDrop *)
      rewrite rmap_take. destruct (rtake i z) as [[[n t] z1]|] eqn:Q; cbn [option_map].
      2:{ apply bad_wp. cbn [vcall]. now rewrite rmap_take, Q. }
      pose proof (held_nodes _ _ _ (held_take _ _ _ _ Q)) as Hn. cbn [snd fst] in *.
      eapply wp_mono with (n := nodes t + 0); [lia|intros ? ? X0; exact X0|].
      eapply wp_weaken with (R' := plus_res (MkR [(n, t)] [] [] []) (held z1) [] []); [unfold plus_res; cbn [r_own r_bor r_len r_uni app]; apply weaker_perm, (held_take _ _ _ _ Q)|].
      eapply wp_bind; [apply wp_frame; try easy; apply (drop_wp S (nodes t) [(n, t)]); cbn; lia|].
      intros _ R' (R1 & -> & ->). unfold plus_res. cbn [r_own r_bor r_len r_uni app].
      apply wp_ret. exists z1. cbn [fst snd]. split; auto. split; auto. cbn [vcall]. now rewrite rmap_take, Q.
    - (* CMove *)
      rewrite rmap_take. destruct (rtake i z) as [[e z1]|] eqn:Q; cbn [option_map].
      2:{ apply bad_wp. cbn [vcall]. now rewrite rmap_take, Q. }
      rewrite rmap_put. destruct (rput j e z1) as [z2|] eqn:Q2; cbn [option_map].
      2:{ apply bad_wp. cbn [vcall]. rewrite rmap_take, Q. cbn [option_map]. now rewrite rmap_put, Q2. }
      eapply wp_mono with (n := 1); [lia|intros ? ? X0; exact X0|]. apply wp_tau.
      eapply wp_weaken with (R' := MkR (held z2) [] [] []); [apply weaker_perm; rewrite (held_take _ _ _ _ Q); symmetry; now apply (held_rput _ j)|].
      apply wp_ret. exists z2. cbn [fst snd]. split; auto. split; auto. cbn [vcall]. rewrite rmap_take, Q. cbn [option_map]. now rewrite rmap_put, Q2.
    - (* CPrefix *)
      rewrite rmap_get. destruct (rget i z) as [[n t]|] eqn:Q; cbn [option_map].
      2:{ apply bad_wp. cbn [vcall]. unfold changed. now rewrite rmap_get, Q. }
      cbn [fst]. pose proof (le_work (CPrefix i path p) z _ (get_nodes _ _ _ _ Q)) as Hle. cbn [path_of] in Hle.
      eapply wp_mono with (n := length path * (2 * nodes t + 5) + 2 * nodes t + 0); [lia|intros ? ? X0; exact X0|].
      rewrite <- (app_nil_r (held z)). eapply reg_mut_wp; [apply prefix_act|exact Q|]. intros n' t' x out Hp. apply at_path_sub in Hp.
      destruct (t_sub path t) as [u|].
      + destruct Hp as (u' & (-> & -> & Eu) & _ & Ht & _). cbn [app].
        eapply wp_weaken with (R' := MkR (held (upd_nth i (Some (n', t')) z)) [] [] []); [apply weaker_perm; symmetry; now apply (held_set z i (n, t))|].
        apply wp_ret. eexists. cbn [fst snd]. split; [|split; [|reflexivity]]; [now rewrite rmap_upd|].
        cbn [vcall]. unfold changed. rewrite rmap_get, Q. cbn [option_map snd]. rewrite (Ht (t_set_prefix p) None) by (destruct u; now subst). now rewrite rmap_upd.
      + destruct Hp as (-> & -> & -> & Ht). cbn [app].
        eapply wp_weaken with (R' := MkR (held (upd_nth i (Some (n', t)) z)) [] [] []); [apply weaker_perm; symmetry; now apply (held_set z i (n, t))|].
        apply wp_ret. exists (upd_nth i (Some (n', t)) z). cbn [fst snd]. split; [now rewrite rmap_upd|]. split; [|reflexivity].
        cbn [vcall]. unfold changed. rewrite rmap_get, Q. cbn [option_map snd]. rewrite Ht, rmap_upd. cbn [option_map snd]. rewrite upd_nth_id; auto.
        rewrite rmap_nth. unfold rget in Q. destruct (nth_error z i) as [[?|]|]; try discriminate. now injection Q as ->.
    - (* CValue *)
      rewrite rmap_get. destruct (rget i z) as [[n t]|] eqn:Q; cbn [option_map].
      2:{ apply bad_wp. cbn [vcall]. unfold changed. now rewrite rmap_get, Q. }
      cbn [fst]. pose proof (le_work (CValue i path v) z _ (get_nodes _ _ _ _ Q)) as Hle. cbn [path_of] in Hle.
      eapply wp_mono with (n := length path * (2 * nodes t + 5) + 2 * nodes t + 0); [lia|intros ? ? X0; exact X0|].
      rewrite <- (app_nil_r (held z)). eapply reg_mut_wp; [apply value_act|exact Q|]. intros n' t' x out Hp. apply at_path_sub in Hp.
      destruct (t_sub path t) as [u|].
      + destruct Hp as (u' & (-> & -> & Eu) & _ & Ht & _). cbn [app].
        eapply wp_weaken with (R' := MkR (held (upd_nth i (Some (n', t')) z)) [] [] []); [apply weaker_perm; symmetry; now apply (held_set z i (n, t))|].
        apply wp_ret. eexists. cbn [fst snd]. split; [|split; [|reflexivity]]; [now rewrite rmap_upd|].
        cbn [vcall]. unfold changed. rewrite rmap_get, Q. cbn [option_map snd]. rewrite (Ht (t_set_value v) None) by (destruct u; now subst). now rewrite rmap_upd.
      + destruct Hp as (-> & -> & -> & Ht). cbn [app].
        eapply wp_weaken with (R' := MkR (held (upd_nth i (Some (n', t)) z)) [] [] []); [apply weaker_perm; symmetry; now apply (held_set z i (n, t))|].
        apply wp_ret. exists (upd_nth i (Some (n', t)) z). cbn [fst snd]. split; [now rewrite rmap_upd|]. split; [|reflexivity].
        cbn [vcall]. unfold changed. rewrite rmap_get, Q. cbn [option_map snd]. rewrite Ht, rmap_upd. cbn [option_map snd]. rewrite upd_nth_id; auto.
        rewrite rmap_nth. unfold rget in Q. destruct (nth_error z i) as [[?|]|]; try discriminate. now injection Q as ->.
    - (* CInsert *)
      rewrite rmap_take. destruct (rtake src z) as [[[m u] z0]|] eqn:Q0; cbn [option_map].
      2:{ apply bad_wp. cbn [vcall]. now rewrite rmap_take, Q0. }
      rewrite rmap_get. destruct (rget i z0) as [[n t]|] eqn:Q; cbn [option_map].
      2:{ apply bad_wp. cbn [vcall]. rewrite rmap_take, Q0. cbn [option_map]. now rewrite rmap_get, Q. }
      cbn [fst]. pose proof (held_take _ _ _ _ Q0) as P0. pose proof (held_nodes _ _ _ P0) as N0. cbn [snd] in N0.
      pose proof (get_nodes _ _ _ _ Q) as N1. rewrite rnodes_held in N1.
      pose proof (le_work (CInsert i path pos src) z (nodes t) ltac:(lia)) as Hle. cbn [path_of] in Hle.
      eapply wp_mono with (n := length path * (2 * nodes t + 5) + 2 * nodes t + (5 + nodes u)); [lia|intros ? ? X0; exact X0|].
      eapply wp_weaken with (R' := MkR (held z0 ++ [(m, u)]) [] [] []); [apply weaker_perm; rewrite P0; apply Permutation_cons_append|].
      eapply reg_mut_wp; [apply insert_act|exact Q|]. intros n' t' x out Hp. apply at_path_sub in Hp.
      assert (Hv : vcall (snds G) (CInsert i path pos src) (ss z) =
        match t_sub path t with
        | Some w => if pos <=? length (t_children w) then changed i path (t_insert pos u) (ss z0) else (ss z0, ABad)
        | None => (ss z, ABad)
        end).
      { cbn [vcall]. rewrite rmap_take, Q0. cbn [option_map]. rewrite rmap_get, Q. reflexivity. }
      destruct (t_sub path t) as [w|].
      + destruct Hp as (w' & (-> & Eu) & Hid & Ht & _). cbn [app]. destruct w as [wp_ wv ws]. cbn [t_children] in Hv.
        destruct (pos <=? length ws) eqn:Qp.
        * destruct Eu as (-> & ->).
          eapply wp_weaken with (R' := MkR (held (upd_nth i (Some (n', t')) z0)) [] [] []); [apply weaker_perm; symmetry; now apply (held_set z0 i (n, t))|].
          apply wp_ret. eexists. cbn [fst snd]. split; [|split; [|reflexivity]]; [now rewrite rmap_upd|]. rewrite Hv.
          unfold changed. rewrite rmap_get, Q. cbn [option_map snd]. rewrite (Ht (t_insert pos u) None); [now rewrite rmap_upd|].
          cbn [t_insert]. now rewrite Qp.
        * destruct Eu as (-> & ->). rewrite (Hid eq_refl) in *.
          eapply wp_weaken with (R' := MkR (held (upd_nth i (Some (n', t)) z0)) [] [] []); [apply weaker_perm; symmetry; now apply (held_set z0 i (n, t))|].
          apply wp_ret. exists (upd_nth i (Some (n', t)) z0). cbn [fst snd]. split; [now rewrite rmap_upd|]. split; [|reflexivity]. rewrite Hv.
          rewrite rmap_upd. cbn [option_map snd]. rewrite upd_nth_id; auto.
          rewrite rmap_nth. unfold rget in Q. destruct (nth_error z0 i) as [[?|]|]; try discriminate. now injection Q as ->.
      + destruct Hp as (-> & -> & -> & Ht). cbn [app].
        assert (Qz : rget i z = Some (n, t)).
        { unfold rtake in Q0. destruct (rget src z) as [e|] eqn:Qs; [|discriminate]. injection Q0 as -> <-.
          unfold rget in Q, Qs |- *. destruct (Nat.eq_dec i src) as [->|N].
          - destruct (nth_error z src) as [[?|]|] eqn:Qn; try discriminate. rewrite (nth_upd_same _ _ _ _ Qn) in Q. discriminate.
          - rewrite nth_upd_other in Q; auto. apply nth_error_Some. destruct (nth_error z src); congruence. }
        eapply wp_weaken with (R' := MkR (held (upd_nth i (Some (n', t)) z)) [] [] []).
        { apply weaker_perm. rewrite (held_set z i (n, t) (n', t) Qz). apply perm_skip.
          pose proof (held_none z i _ Qz) as P1. pose proof (held_none z0 i _ Q) as P2.
          apply Permutation_cons_inv with (a := (n, t)). rewrite <- P1, P0, P2. apply perm_swap. }
        apply wp_ret. exists (upd_nth i (Some (n', t)) z). cbn [fst snd]. split; [now rewrite rmap_upd|]. split; [|reflexivity]. rewrite Hv.
        rewrite rmap_upd. cbn [option_map snd]. rewrite upd_nth_id; auto.
        rewrite rmap_nth. unfold rget in Qz. destruct (nth_error z i) as [[?|]|]; try discriminate. now injection Qz as ->.
    - (* CRemove *)
      rewrite rmap_get. destruct (rget i z) as [[n t]|] eqn:Q; cbn [option_map].
      2:{ apply bad_wp. cbn [vcall]. now rewrite rmap_get, Q. }
      rewrite rmap_nth. destruct (nth_error z j) as [[e|]|] eqn:Qj; cbn [option_map].
      1, 3: apply bad_wp; cbn [vcall]; rewrite rmap_get, Q, rmap_nth, Qj; reflexivity.
      cbn [fst]. pose proof (le_work (CRemove i path pos j) z _ (get_nodes _ _ _ _ Q)) as Hle. cbn [path_of] in Hle.
      eapply wp_mono with (n := length path * (2 * nodes t + 5) + 2 * nodes t + 5); [lia|intros ? ? X0; exact X0|].
      rewrite <- (app_nil_r (held z)). eapply reg_mut_wp; [apply remove_act|exact Q|]. intros n' t' x out Hp. apply at_path_sub in Hp.
      assert (Hv : vcall (snds G) (CRemove i path pos j) (ss z) =
        match tmut path (t_remove pos) t with
        | Some (t', Some m) => (upd_nth j (Some m) (upd_nth i (Some t') (ss z)), AOk)
        | _ => (ss z, ABad)
        end).
      { cbn [vcall]. rewrite rmap_get, Q, rmap_nth, Qj. reflexivity. }
      assert (Hsame : forall n', exists z', upd_nth i (Some n') (fs z) = fs z' /\ ss z' = ss z /\ Permutation ((n', t) :: held (upd_nth i None z)) (held z')).
      { intros n1. exists (upd_nth i (Some (n1, t)) z). split; [now rewrite rmap_upd|]. split; [|symmetry; now apply (held_set z i (n, t))].
        rewrite rmap_upd. cbn [option_map snd]. rewrite upd_nth_id; auto.
        rewrite rmap_nth. unfold rget in Q. destruct (nth_error z i) as [[?|]|]; try discriminate. now injection Q as ->. }
      destruct (t_sub path t) as [w|].
      + destruct Hp as (w' & Eu & Hid & Ht & Hn). destruct w as [wp_ wv ws]. cbn [remove_spec] in Eu. destruct (nth_error ws pos) as [u|] eqn:Qu.
        * destruct Eu as (m & -> & -> & ->). cbn [app].
          assert (Hij : j <> i) by (intros ->; unfold rget in Q; rewrite Qj in Q; discriminate).
          assert (Hi : i < length z) by (apply nth_error_Some; unfold rget in Q; now destruct (nth_error z i)).
          assert (Qj' : nth_error (upd_nth i (Some (n', t')) z) j = Some None) by (rewrite nth_upd_other; auto).
          eapply wp_weaken with (R' := MkR (held (upd_nth j (Some (m, u)) (upd_nth i (Some (n', t')) z))) [] [] []).
          { apply weaker_perm. rewrite (held_put _ j (m, u) Qj'), (held_set z i (n, t) (n', t') Q). apply perm_swap. }
          apply wp_ret. eexists. cbn [fst snd]. split; [|split; [|reflexivity]]; [now rewrite !rmap_upd|]. rewrite Hv.
          rewrite (Ht (t_remove pos) (Some u)); [now rewrite !rmap_upd|]. cbn [t_remove]. now rewrite Qu.
        * destruct Eu as (-> & -> & ->). rewrite (Hid eq_refl) in *. destruct (Hsame n') as (z' & E1 & E2 & P). cbn [app].
          eapply wp_weaken with (R' := MkR (held z') [] [] []); [now apply weaker_perm|].
          apply wp_ret. exists z'. cbn [fst snd]. split; auto. split; [|reflexivity]. rewrite Hv, (Hn (t_remove pos)); [now rewrite E2|]. cbn [t_remove]. now rewrite Qu.
      + destruct Hp as (-> & -> & -> & Ht). destruct (Hsame n') as (z' & E1 & E2 & P). cbn [app].
        eapply wp_weaken with (R' := MkR (held z') [] [] []); [now apply weaker_perm|].
        apply wp_ret. exists z'. cbn [fst snd]. split; auto. split; [|reflexivity]. rewrite Hv, Ht. now rewrite E2.
  Qed.
End Sim.

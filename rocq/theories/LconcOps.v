(** The operations of LconcModel.v in the logic of LconcLogic.v. *)
From Coq Require Import Permutation.
From Verif Require Export LconcRules.

Section Ops.
  Context {K V : Type}.
  Notation tree := (rtree K V).
  Notation node := (node K V).
  Notation heap := (heap K V).
  Notation prog := (prog K V).
  Notation ent := (node * tree)%type.
  Implicit Types (h : heap) (ns C : list node) (ts : list tree) (O F : list ent) (D B : list nat).
  Context (S : list ent).
  Notation Sn := (fsts S).
  Notation St := (St S).
  Notation wp := (wp S).
  Notation noforge := (noforge S).
  Notation vlent := (vlent S).
  Notation su := Datatypes.S.

  (** ** Changing the description of what a thread holds *)
  Definition runs {A} (p : prog A) : Prop := match p with PRet _ => False | _ => True end.
  Lemma runs_not {A} (p : prog A) a : runs p -> p <> PRet a.
  Proof. intros H ->. exact H. Qed.
  Lemma wp_conv {A} n (p : prog A) R R' Q : runs p -> (forall h C D, St h R C D -> St h R' C D) ->
    (forall a, cnt a (fsts (r_own R')) <= cnt a (fsts (r_own R))) -> wp n p R' Q -> wp n p R Q.
  Proof.
    intros Hp H Hc W. destruct n as [|n].
    - destruct W as [(a & O1 & L1 & U1 & E & _)|[]]. now apply runs_not with (a := a) in Hp.
    - destruct W as [(a & O1 & L1 & U1 & E & _)|W]; [now apply runs_not with (a := a) in Hp|]. right. intros h C D H0.
      destruct (W h C D (H _ _ _ H0)) as (h' & p' & R1 & E & H1 & H2 & H3 & H4). exists h', p', R1. split; auto. split; auto. split; auto. split; auto.
      intros a Ha E0. apply H3; auto. specialize (Hc a). rewrite cnt_app in *. lia.
  Qed.
  Lemma wp_pure {A} n (p : prog A) R Q : runs p -> (forall h C D, St h R C D -> wp (su n) p R Q) -> wp (su n) p R Q.
  Proof.
    intros Hp H. right. intros h C D H0. destruct (H h C D H0) as [(a & O1 & L1 & U1 & E & _)|W]; [now apply runs_not with (a := a) in Hp|].
    now apply W.
  Qed.
  Lemma wp_tau' {A} n (k : prog A) R R' Q : (forall h C D, St h R C D -> St h R' C D) ->
    (forall a, cnt a (fsts (r_own R')) <= cnt a (fsts (r_own R))) -> wp n k R' Q -> wp (su n) (PTau k) R Q.
  Proof. intros H Hc W. eapply wp_conv; [exact I|exact H|exact Hc|]. now apply wp_tau. Qed.

  Lemma st_inl h p v us t O B L U C D : St h (MkR ((MkN p v (inl us), t) :: O) B L U) C D -> t = Node p v us.
  Proof.
    intros H. pose proof (st_O _ _ _ _ _ H) as Dn. cbn in Dn. inversion Dn; subst.
    match goal with Q : den _ _ _ |- _ => now inversion Q end.
  Qed.
  Lemma st_drop_inl h p v us t O B C D : St h (MkR ((MkN p v (inl us), t) :: O) B [] []) C D -> St h (MkR O B [] []) C D.
  Proof.
    intros [I1 I2 I3 I4 I5 I6 I7]. cbn [r_own r_bor r_len r_uni fsts snds map fst snd] in *. constructor; cbn [r_own r_bor r_len r_uni]; auto; try easy.
    - eapply inv_inl. eapply inv_perm; [symmetry; apply Permutation_middle|exact I1].
    - now inversion I3.
  Qed.
  Lemma st_add_shallow h t R C D : St h R C D -> St h (MkR ((shallow t, t) :: r_own R) (r_bor R) (r_len R) []) C D.
  Proof.
    intros [I1 I2 I3 I4 I5 I6 I7]. destruct t as [p v us].
    constructor; cbn [r_own r_bor r_len r_uni fsts snds map fst snd shallow]; auto; try easy.
    - eapply inv_perm; [apply Permutation_middle|]. now apply inv_inl.
    - constructor; auto. constructor.
    - intros o b us' ks Hi. destruct (I6 o b us' ks Hi) as (A1 & A2). split; auto. rewrite in_app_iff in *. cbn. tauto.
  Qed.
  Lemma st_shallow h us O B C D p v : St h (MkR ((MkN p v (inl us), Node p v us) :: O) B [] []) C D ->
    St h (MkR (combine (map shallow us) us ++ O) B [] []) C D.
  Proof.
    intros H. apply st_drop_inl in H as [I1 I2 I3 I4 I5 I6 I7]. cbn [r_own r_bor r_len r_uni] in *.
    assert (E : length (map shallow us) = length us) by apply map_length.
    constructor; cbn [r_own r_bor r_len r_uni]; auto; try easy.
    - rewrite fsts_app, fsts_combine by exact E. apply (shallow_inv h _ us) in I1. eapply inv_perm; [|exact I1].
      rewrite !app_assoc. apply Permutation_app_tail, Permutation_app_tail, Permutation_app_comm.
    - rewrite fsts_app, snds_app, fsts_combine, snds_combine by exact E. apply dens_join; auto. apply shallow_dens.
  Qed.
  Lemma cnt_shallow a us : cnt a (map (@shallow K V) us) = 0.
  Proof. induction us as [|[p v ws] us IH]; auto. Qed.
  Lemma st_relabel h k p v q w ts O B C D : St h (MkR ((MkN p v k, Node p v ts) :: O) B [] []) C D -> St h (MkR ((MkN q w k, Node q w ts) :: O) B [] []) C D.
  Proof.
    intros [I1 I2 I3 I4 I5 I6 I7]. cbn [r_own r_bor r_len r_uni fsts snds map fst snd] in *. constructor; cbn [r_own r_bor r_len r_uni]; auto; try easy.
    - cbn [fsts map fst]. eapply inv_perm; [apply Permutation_middle|]. eapply (inv_kids h _ (MkN p v k)); [reflexivity|].
      eapply inv_perm; [symmetry; apply Permutation_middle|exact I1].
    - cbn [fsts snds map fst snd]. inversion I3 as [|? ? ? ? Dm Dr]; subst. constructor; auto. inversion Dm; subst; econstructor; eauto.
  Qed.

  (** ** Sizes *)
  Definition tnodes ts : nat := list_sum (map nodes ts).
  Lemma nodes_node p v ts : nodes (Node p v ts) = su (tnodes ts).
  Proof. reflexivity. Qed.
  Lemma tnodes_cons t ts : tnodes (t :: ts) = nodes t + tnodes ts.
  Proof. reflexivity. Qed.
  Lemma tnodes_app ts us : tnodes (ts ++ us) = tnodes ts + tnodes us.
  Proof. unfold tnodes. now rewrite map_app, list_sum_app. Qed.
  Lemma nodes_pos (t : tree) : 0 < nodes t.
  Proof. destruct t. rewrite nodes_node. lia. Qed.
  Lemma len_tnodes ts : length ts <= tnodes ts.
  Proof. induction ts as [|t ts IH]; [auto|]. rewrite tnodes_cons. cbn [length]. pose proof (nodes_pos t). lia. Qed.
  Lemma nth_nodes ts i t : nth_error ts i = Some t -> nodes t <= tnodes ts.
  Proof.
    revert i. induction ts as [|u ts IH]; intros [|i]; cbn [nth_error]; try discriminate; rewrite tnodes_cons.
    - intros [= ->]. lia.
    - intros H. apply IH in H. lia.
  Qed.

  (** ** Drop *)
  Lemma p_drop_nil : p_drop [] = PRet tt :> prog unit.
  Proof. rewrite (frob_eq (p_drop [])). reflexivity. Qed.
  Lemma p_drop_cons (n : node) w : p_drop (n :: w) =
    match n_kids n with inl _ => PTau (p_drop w)
    | inr a => PDec a (fun r => match r with Some ns => p_drop (ns ++ w) | None => p_drop w end) end.
  Proof. rewrite (frob_eq (p_drop (n :: w))). destruct n as [p v [us|a]]; reflexivity. Qed.
  Lemma drop_wp N : forall O, tnodes (snds O) <= N -> wp N (p_drop (fsts O)) (MkR O [] [] []) (fun _ R => R = MkR [] [] [] []).
  Proof.
    induction N as [|N IH]; intros [|[n t] O] Hs.
    - cbn [fsts map]. rewrite p_drop_nil. now apply wp_ret.
    - cbn [snds map snd] in Hs. rewrite tnodes_cons in Hs. pose proof (nodes_pos t). lia.
    - cbn [fsts map]. rewrite p_drop_nil. now apply wp_ret.
    - cbn [fsts snds map fst snd] in *. rewrite tnodes_cons in Hs. pose proof (nodes_pos t). rewrite p_drop_cons. destruct n as [p v [us|a]]; cbn [n_kids].
      + apply wp_tau' with (R' := MkR O [] [] []); [intros h C D H0; eapply st_drop_inl; exact H0| |apply IH; fold (snds O) in Hs; lia].
        intros a. cbn [r_own fsts map fst]. rewrite cnt_cons. lia.
      + apply wp_pure; [exact I|]. intros h C D H0. pose proof (st_O _ _ _ _ _ H0) as Dn. cbn [r_own fsts snds map fst snd] in Dn.
        inversion Dn as [|? ? ? ? Dm Dr]; subst. inversion Dm as [|? ? ? rc ns ts Hc Dk]; subst. rewrite nodes_node in Hs. apply wp_dec.
        * intros ms El. fold (fsts O). rewrite <- (fsts_combine ms ts El) at 1. rewrite <- fsts_app. apply IH. rewrite snds_app, snds_combine, tnodes_app by auto.
          unfold snds. lia.
        * apply IH. unfold snds. lia.
  Qed.

  (** ** Clone of a vector *)
  Lemma skipn_cons ts i t us : skipn i ts = t :: us -> nth_error ts i = Some t /\ skipn (su i) ts = us.
  Proof.
    revert i. induction ts as [|x ts IH]; intros [|i]; cbn [skipn nth_error]; try discriminate.
    - intros [= -> ->]. auto.
    - intros E. apply IH in E. exact E.
  Qed.
  Lemma copy_wp o a ts k : forall i R us, r_uni R = [] -> vlent R o a ts -> skipn i ts = us -> length us = k ->
    wp k (p_copy a i k) R (fun cs R' => length cs = k /\ R' = MkR (combine cs us ++ r_own R) (r_bor R) (r_len R) []).
  Proof.
    induction k as [|k IH]; intros i R us Hu Hl Es El; destruct us as [|t us]; cbn [length] in El; try discriminate; cbn [p_copy].
    - apply wp_ret. destruct R as [O B L U]. cbn in *. subst. auto.
    - injection El as El.
      destruct (skipn_cons ts i t us Es) as (Ht & Es').
      eapply wp_copy; [exact Hl|exact Ht|]. intros c. replace k with (k + 0) at 1 by lia. eapply wp_bind.
      + apply (IH (su i) (MkR ((c, t) :: r_own R) (r_bor R) (r_len R) []) us); auto.
        destruct Hl as [(p & v & -> & Hi)|H]; [left|right; auto]. exists p, v. split; auto. cbn [r_own]. rewrite in_app_iff in *. cbn. tauto.
      + cbn [r_own r_bor r_len]. intros cs R' (Ec & ->). eapply wp_weaken with (R' := MkR (combine (c :: cs) (t :: us) ++ r_own R) (r_bor R) (r_len R) []).
        { repeat split; cbn [r_own r_bor r_len r_uni combine app]; auto using incl_refl. symmetry. apply Permutation_middle. }
        apply wp_ret. cbn [length]. auto.
  Qed.

  (** ** children_mut *)
  Definition cm_post (p : list K) (v : option V) ts (r : node * nat * list node) (R : res) : Prop :=
    let '(n1, a, ns) := r in n1 = MkN p v (inr a) /\ length ns = length ts /\ R = MkR (combine ns ts) [a] [] [].
  Lemma children_mut_wp n p v ts : wp (2 * nodes (Node p v ts) + 4) (p_children_mut n) (MkR [(n, Node p v ts)] [] [] []) (cm_post p v ts).
  Proof.
    rewrite nodes_node. pose proof (len_tnodes ts) as Hlen. set (T := tnodes ts) in *.
    assert (U : forall a n, n_prefix n = p -> n_value n = v -> wp (2 * su T + 3)
      (PUniq a (fun r => match r with
        | Some ns => PRet (with_arc n a, a, ns)
        | None =>
            PSums a (fun l => pbind (p_copy a 0 (length l)) (fun ns => PNew ns (fun a' =>
            pbind (PDec a (fun r => match r with Some ms => p_drop ms | None => PRet tt end)) (fun _ =>
            PUniq a' (fun r => match r with Some ms => PRet (with_arc n a', a', ms) | None => PFault end)))))
        end)) (MkR [(MkN p v (inr a), Node p v ts)] [] [] []) (cm_post p v ts)).
    { clear n. intros a n Ep Ev. replace (2 * su T + 3) with (su (su (T + su (su T + 1)))) by lia. apply wp_uniq.
      - intros ns El. apply wp_ret. unfold cm_post, with_arc. rewrite Ep, Ev, app_nil_r. auto.
      - eapply wp_sums; [left; exists p, v; split; [reflexivity|apply in_or_app; right; now left]|]. rewrite map_length. cbn [r_own r_bor r_len].
        eapply wp_bind with (n := T); [eapply wp_mono; [exact Hlen|intros ? ? X; exact X|]; eapply (copy_wp (MkN p v (inr a)) a ts _ 0); auto|].
        { left. exists p, v. split; [reflexivity|]. apply in_or_app. right. now left. }
        cbn [r_own r_bor r_len]. intros ns R' (El & ->). eapply wp_new; [exact El|]. intros a'.
        eapply wp_weaken with (R' := plus_res (MkR [(MkN p v (inr a), Node p v ts)] [] [] []) [(MkN p v (inr a'), Node p v ts)] [] [a']);
          [repeat split; cbn; auto using incl_refl; apply perm_swap|].
        eapply wp_bind.
        { eapply wp_frame with (n := su T) (Q := fun _ R => R = MkR [] [] [] []); try easy.
          - intros b [<-|[]]. cbn [fsts map fst]. rewrite cnt_cons, ref_self. reflexivity.
          - apply wp_dec; [|now apply wp_ret]. intros ms Em. rewrite app_nil_r. rewrite <- (fsts_combine ms ts Em) at 1. apply drop_wp. now rewrite snds_combine. }
        intros _ R' (R1 & -> & ->). cbn [plus_res r_own r_bor r_len r_uni app]. apply wp_uniq_sure. intros ms Em. apply wp_ret.
        unfold cm_post, with_arc. rewrite Ep, Ev, app_nil_r. auto. }
    replace (2 * su T + 4) with (su (2 * su T + 3)) by lia. unfold p_children_mut.
    assert (Hd : forall h C D, St h (MkR [(n, Node p v ts)] [] [] []) C D -> den h n (Node p v ts)).
    { intros h C D H0. pose proof (st_O _ _ _ _ _ H0) as Dn. cbn in Dn. now inversion Dn. }
    destruct (n_kids n) as [us|a] eqn:Qn.
    - apply wp_pure; [exact I|]. intros h C D H0. apply Hd in H0. inversion H0; subst; cbn in Qn; [|discriminate]. injection Qn as ->.
      eapply wp_conv with (R' := MkR (combine (map shallow us) us ++ []) [] [] []); [exact I| | |].
      + intros h' C' D' H1. eapply st_shallow. exact H1.
      + intros a. cbn [r_own]. rewrite fsts_app, fsts_combine by apply map_length. rewrite cnt_app, cnt_shallow. cbn. lia.
      + eapply wp_new; [apply map_length|]. intros a. eapply wp_weaken; [|apply U; reflexivity]. repeat split; cbn; auto using incl_refl. easy.
    - apply wp_pure; [exact I|]. intros h C D H0. apply Hd in H0. inversion H0; subst; cbn in Qn; [discriminate|]. injection Qn as ->.
      eapply wp_mono with (n := 2 * su T + 3); [lia|intros ? ? X; exact X|]. apply U; reflexivity.
  Qed.
End Ops.

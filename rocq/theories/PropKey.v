(** Property C63: a key returned by iteration and kept by the caller never changes. *)
From Coq Require Import Permutation.
From Verif Require Export KeyModel.

Section KeyFacts.
  Context {K V : Type}.
  Notation tree := (rtree K V).
  Notation kheap := (kheap K).
  Notation kstate := (kstate K V).
  Implicit Types (h : kheap) (R : list nat).
  Notation cnt := (count_occ Nat.eq_dec).

  Definition cont h a (d : list K) : Prop := exists rc, k_cell h a = Some (rc, d).
  Record KInv h R : Prop := {
    ki_bound : forall a, k_next h <= a -> k_cell h a = None;
    ki_count : forall a, match k_cell h a with Some (rc, _) => rc = cnt R a /\ 0 < rc | None => cnt R a = 0 end }.
  Definition keeps h h' R : Prop := forall a d, In a R -> cont h a d -> cont h' a d.

  Lemma kinv_perm h R R' : Permutation R R' -> KInv h R -> KInv h R'.
  Proof.
    intros P [B C]. split; auto. intros a. specialize (C a).
    now rewrite <- (proj1 (Permutation_count_occ Nat.eq_dec R R') P a).
  Qed.
  Lemma kinv_live h R a : KInv h R -> In a R -> exists rc d, k_cell h a = Some (S rc, d) /\ S rc = cnt R a.
  Proof.
    intros [B C] Ha. apply (count_occ_In Nat.eq_dec) in Ha. specialize (C a). destruct (k_cell h a) as [[[|rc] d]|]; [lia| |lia]. exists rc, d. split; auto. lia.
  Qed.
  Lemma k_upd_same h a c : k_cell (k_upd h a c) a = c.
  Proof. cbn. now rewrite Nat.eqb_refl. Qed.
  Lemma k_upd_other h a c b : b <> a -> k_cell (k_upd h a c) b = k_cell h b.
  Proof. intros N. cbn. now rewrite (proj2 (Nat.eqb_neq b a)). Qed.
  Lemma kinv_lt h R a c : KInv h R -> k_cell h a = Some c -> a < k_next h.
  Proof. intros [B _] H. destruct (Nat.lt_ge_cases a (k_next h)); auto. rewrite B in H by auto. discriminate. Qed.

  Lemma kinv_upd h R R' a x y : KInv h R -> k_cell h a = Some x -> (forall b, b <> a -> cnt R' b = cnt R b) ->
    match y with Some (rc, _) => rc = cnt R' a /\ 0 < rc | None => cnt R' a = 0 end -> KInv (k_upd h a y) R'.
  Proof.
    intros I Ha E Hy. pose proof (kinv_lt _ _ _ _ I Ha) as L. destruct I as [B C]. split.
    - intros b Hb. rewrite k_upd_other; [auto|]. cbn in Hb. lia.
    - intros b. destruct (Nat.eq_dec b a) as [->|N]; [now rewrite k_upd_same|]. rewrite k_upd_other, E by auto. apply C.
  Qed.
  Lemma cnt_cons_ne R a b : b <> a -> cnt (a :: R) b = cnt R b.
  Proof. intros N. cbn. destruct (Nat.eq_dec a b); congruence. Qed.
  Lemma cnt_cons_eq R a : cnt (a :: R) a = S (cnt R a).
  Proof. cbn. destruct (Nat.eq_dec a a); congruence. Qed.

  Lemma k_clone_ok h R a : KInv h R -> In a R -> exists h', k_clone h a = Some h' /\ KInv h' (a :: R) /\ forall b d, cont h b d -> cont h' b d.
  Proof.
    intros I Ha. destruct (kinv_live h R a I Ha) as (rc & d & Hc & E). unfold k_clone. rewrite Hc. eexists. split; [reflexivity|]. split.
    - eapply kinv_upd; eauto; [intros; now apply cnt_cons_ne|]. rewrite cnt_cons_eq. lia.
    - intros b x (r & Hb). unfold cont. destruct (Nat.eq_dec b a) as [->|N]; [rewrite k_upd_same|rewrite k_upd_other by auto]; eauto.
      rewrite Hc in Hb. injection Hb as _ <-. eauto.
  Qed.
  Lemma k_drop_ok h R a : KInv h (a :: R) -> exists h', k_drop h a = Some h' /\ KInv h' R /\ keeps h h' R.
  Proof.
    intros I. destruct (kinv_live h _ a I (or_introl eq_refl)) as (rc & d & Hc & E). rewrite cnt_cons_eq in E. injection E as E. unfold k_drop. rewrite Hc.
    destruct rc as [|rc]; (eexists; split; [reflexivity|]; split; [apply (kinv_upd h (a :: R) R a _ _ I Hc); [intros; symmetry; now apply cnt_cons_ne|cbn; lia]|]).
    - intros b x Hb (r & Hx). destruct (Nat.eq_dec b a) as [->|N]; [|exists r; now rewrite k_upd_other].
      apply (count_occ_In Nat.eq_dec) in Hb. lia.
    - intros b x Hb (r & Hx). destruct (Nat.eq_dec b a) as [->|N]; [|exists r; now rewrite k_upd_other].
      exists (S rc). rewrite k_upd_same. congruence.
  Qed.
  Lemma k_new_ok h R d h' a : KInv h R -> k_new h d = (h', a) -> KInv h' (a :: R) /\ k_cell h' a = Some (1, d) /\ (forall b x, k_cell h b = Some x -> k_cell h' b = Some x).
  Proof.
    intros I [= <- <-]. pose proof I as [B C]. split; [|split].
    - split; cbn [k_next k_cell].
      + intros b Hb. rewrite (proj2 (Nat.eqb_neq b (k_next h))) by lia. apply B. lia.
      + intros b. pose proof (C b) as Cb. destruct (Nat.eqb_spec b (k_next h)) as [->|N].
        * rewrite cnt_cons_eq. rewrite B in Cb by lia. lia.
        * now rewrite cnt_cons_ne.
    - cbn. now rewrite Nat.eqb_refl.
    - intros b x Hb. cbn. rewrite (proj2 (Nat.eqb_neq b (k_next h))); auto. apply (kinv_lt h R b x I) in Hb. lia.
  Qed.
  (** append and pop: the iterator's key changes, all others stay *)
  Lemma k_change_ok f h R a d : KInv h (a :: R) -> cont h a d ->
    exists h' a', k_change f h a = Some (h', a') /\ KInv h' (a' :: R) /\ cont h' a' (f d) /\ keeps h h' R.
  Proof.
    intros I (r0 & Hd). destruct (kinv_live h _ a I (or_introl eq_refl)) as (rc & d' & Hc & E). rewrite Hc in Hd. injection Hd as _ ->.
    pose proof E as E0. rewrite cnt_cons_eq in E. injection E as E. unfold k_change, k_mut. rewrite Hc. destruct rc as [|rc].
    - rewrite Hc. eexists _, _. split; [reflexivity|]. split; [|split].
      + apply (kinv_upd h (a :: R) (a :: R) a _ _ I Hc); [auto|]. rewrite cnt_cons_eq. lia.
      + exists 1. apply k_upd_same.
      + intros b x Hb (r & Hx). exists r. rewrite k_upd_other; auto. intros ->. apply (count_occ_In Nat.eq_dec) in Hb. lia.
    - set (h1 := k_upd h a (Some (S rc, d))).
      assert (I1 : KInv h1 R) by (eapply kinv_upd; eauto; [intros; symmetry; now apply cnt_cons_ne|lia]).
      destruct (k_new h1 d) as [h2 a2] eqn:Q. destruct (k_new_ok h1 R d h2 a2 I1 Q) as (I2 & Hc2 & X). rewrite Hc2.
      eexists _, _. split; [reflexivity|]. split; [|split].
      + eapply kinv_upd; eauto. pose proof (ki_count _ _ I2 a2) as C2. rewrite Hc2 in C2. exact C2.
      + exists 1. apply k_upd_same.
      + intros b x Hb (r & Hx). assert (N : b <> a2).
        { intros ->. apply (count_occ_In Nat.eq_dec) in Hb. pose proof (ki_count _ _ I1 a2) as Cn.
          rewrite (ki_bound _ _ I1) in Cn by (injection Q as _ <-; cbn; lia). lia. }
        unfold cont. rewrite k_upd_other by auto. destruct (Nat.eq_dec b a) as [->|Na].
        * exists (S rc). rewrite Hc in Hx. injection Hx as _ <-. apply X. apply k_upd_same.
        * exists r. apply X. unfold h1. now rewrite k_upd_other.
  Qed.

  (** *** the machine *)
  Definition kroots (s : kstate) : list nat :=
    match ks_iter s with Some (a, _) => [a] | None => [] end ++ flat_map (fun o => match o with Some a => [a] | None => [] end) (ks_kept s).
  Definition okey h (o : option nat) (k : option (list K)) : Prop :=
    match o, k with Some a, Some d => cont h a d | None, None => True | _, _ => False end.
  Definition kept_addrs (l : list (option nat)) := flat_map (fun o : option nat => match o with Some a => [a] | None => [] end) l.
  Record KGood (s : kstate) (v : @vkeys K V) : Prop := {
    kg_inv : KInv (ks_heap s) (kroots s);
    kg_iter : match ks_iter s, vk_iter v with
              | Some (a, st), Some (p, st') => st = st' /\ cont (ks_heap s) a p
              | None, None => True
              | _, _ => False
              end;
    kg_kept : Forall2 (okey (ks_heap s)) (ks_kept s) (vk_kept v) }.

  Lemma okeys_keeps h h' R l ks : (forall a, In a (kept_addrs l) -> In a R) -> keeps h h' R -> Forall2 (okey h) l ks -> Forall2 (okey h') l ks.
  Proof.
    intros S Kp F. induction F as [|o k l ks O F IH]; constructor.
    - destruct o as [a|], k as [d|]; cbn [okey] in *; auto. apply Kp; auto; apply S; now left.
    - apply IH. intros a Ha. apply S. cbn. apply in_or_app. now right.
  Qed.
  Lemma nth_kept h l ks i : Forall2 (okey h) l ks ->
    match nth_error l i, nth_error ks i with Some o, Some k => okey h o k | None, None => True | _, _ => False end.
  Proof. intros F. revert i. induction F; intros [|i]; simpl; auto. apply IHF. Qed.
  Lemma kept_in l i a : nth_error l i = Some (Some a) -> In a (kept_addrs l).
  Proof. intros H. apply in_flat_map. exists (Some a). split; [eapply nth_error_In; eauto|now left]. Qed.
  Lemma kept_perm l i a : nth_error l i = Some (Some a) -> Permutation (kept_addrs l) (a :: kept_addrs (k_set i None l)).
  Proof.
    revert i. induction l as [|o l IH]; intros [|i] H; cbn in H; try discriminate.
    - injection H as ->. reflexivity.
    - cbn. etransitivity; [apply Permutation_app_head, (IH i H)|]. apply Permutation_sym. apply (Permutation_middle (match o with Some a0 => [a0] | None => [] end)).
  Qed.
  Lemma set_kept h l ks i : Forall2 (okey h) l ks -> Forall2 (okey h) (k_set i None l) (k_set i None ks).
  Proof.
    intros F. revert i. induction F as [|o k l ks O F IH]; intros [|i]; cbn; try (constructor; auto; constructor; fail).
    constructor; auto. apply (IH i).
  Qed.

  Lemma kstep_good o s v v' : KGood s v -> vk_step o v = Some v' -> exists s', k_step o s = Some s' /\ KGood s' v'.
  Proof.
    destruct s as [h it kept]. intros [I Hi Hk] H. cbn [ks_heap ks_iter ks_kept kroots] in *. fold (kept_addrs kept) in *. unfold kroots in I. cbn [ks_iter ks_kept] in I. fold (kept_addrs kept) in I.
    destruct o as [|i|i|]; cbn [vk_step k_step ks_heap ks_iter ks_kept] in *.
    - (* round *) destruct v as [[[p st]|] vk]; cbn [vk_iter vk_kept] in *; [|discriminate]. destruct it as [[a st']|]; [|easy]. destruct Hi as [-> Hi].
      cbn [app] in I. unfold k_round. destruct st as [|[t pos] st]; cbn [iter_step] in H.
      + injection H as <-. eexists. split; [reflexivity|]. split; cbn; auto.
      + destruct pos as [|i].
        * destruct (t_value t) as [x|]; injection H as <-.
          -- destruct (k_clone_ok h _ a I) as (h1 & -> & I1 & X); [now left|]. eexists. split; [reflexivity|]. split; cbn [ks_heap ks_iter ks_kept vk_iter vk_kept].
             ++ unfold kroots. cbn [ks_iter ks_kept]. rewrite flat_map_app. cbn. eapply kinv_perm; [|exact I1]. apply perm_skip. apply Permutation_cons_append.
             ++ split; auto.
             ++ apply Forall2_app; [|constructor; [now apply X|constructor]]. eapply okeys_keeps; [|intros ? ? _; apply X|exact Hk]. intros b Hb. exact Hb.
          -- eexists. split; [reflexivity|]. split; cbn; auto.
        * destruct (nth_error (t_children t) i) as [c|]; injection H as <-.
          -- destruct (k_change_ok (fun q => key_append q (t_prefix c)) h _ a p I Hi) as (h1 & a1 & Q & I1 & C1 & Kp). unfold k_append. rewrite Q.
             eexists. split; [reflexivity|]. split; cbn [ks_heap ks_iter ks_kept vk_iter vk_kept]; auto. eapply okeys_keeps; eauto.
          -- destruct (k_change_ok (fun q => key_pop q (length (t_prefix t))) h _ a p I Hi) as (h1 & a1 & Q & I1 & C1 & Kp). unfold k_pop. rewrite Q.
             eexists. split; [reflexivity|]. split; cbn [ks_heap ks_iter ks_kept vk_iter vk_kept]; auto. eapply okeys_keeps; eauto.
    - (* clone *) pose proof (nth_kept h kept (vk_kept v) i Hk) as N. destruct (nth_error (vk_kept v) i) as [[k|]|]; try discriminate. injection H as <-.
      destruct (nth_error kept i) as [[a|]|] eqn:Q; try easy.
      destruct (k_clone_ok h _ a I) as (h1 & -> & I1 & X); [apply in_or_app; right; eapply kept_in; eauto|]. eexists. split; [reflexivity|].
      split; cbn [ks_heap ks_iter ks_kept vk_iter vk_kept].
      + unfold kroots. cbn [ks_iter ks_kept]. rewrite flat_map_app. cbn [flat_map app]. eapply kinv_perm; [|exact I1]. rewrite app_assoc. apply Permutation_cons_append.
      + destruct it as [[b st]|], (vk_iter v) as [[p st']|]; auto. destruct Hi as [-> Hi]. auto.
      + apply Forall2_app; [|constructor; [now apply X|constructor]]. eapply okeys_keeps; [|intros ? ? _; apply X|exact Hk]. intros b Hb. exact Hb.
    - (* drop *) pose proof (nth_kept h kept (vk_kept v) i Hk) as N. destruct (nth_error (vk_kept v) i) as [[k|]|]; try discriminate. injection H as <-.
      destruct (nth_error kept i) as [[a|]|] eqn:Q; try easy.
      assert (P : Permutation ((match it with Some (b, _) => [b] | None => [] end) ++ kept_addrs kept) (a :: (match it with Some (b, _) => [b] | None => [] end) ++ kept_addrs (k_set i None kept))).
      { etransitivity; [apply Permutation_app_head, (kept_perm kept i a Q)|]. apply Permutation_sym, Permutation_middle. }
      apply (kinv_perm _ _ _ P) in I. destruct (k_drop_ok h _ a I) as (h1 & -> & I1 & Kp). eexists. split; [reflexivity|].
      split; cbn [ks_heap ks_iter ks_kept vk_iter vk_kept]; auto.
      + destruct it as [[b st]|], (vk_iter v) as [[p st']|]; auto. destruct Hi as [-> Hi]. split; auto. apply Kp; auto. now left.
      + eapply okeys_keeps; [|exact Kp|apply set_kept; exact Hk]. intros b Hb. apply in_or_app. now right.
    - (* stop *) destruct (vk_iter v) as [[p st]|]; [|discriminate]. injection H as <-. destruct it as [[a st']|]; [|easy]. cbn [app] in I.
      destruct (k_drop_ok h _ a I) as (h1 & -> & I1 & Kp). eexists. split; [reflexivity|]. split; cbn [ks_heap ks_iter ks_kept vk_iter vk_kept]; auto.
      eapply okeys_keeps; [|exact Kp|exact Hk]. auto.
  Qed.
  Lemma krun_good os : forall s v v', KGood s v -> vk_run os v = Some v' -> exists s', k_run os s = Some s' /\ KGood s' v'.
  Proof.
    induction os as [|o os IH]; intros s v v' G H; cbn [vk_run k_run] in *; [injection H as <-; eauto|].
    destruct (vk_step o v) as [v1|] eqn:Q; [|discriminate]. destruct (kstep_good o s v v1 G Q) as (s1 & -> & G1). eauto.
  Qed.
  Lemma kinit_good t path : KGood (k_init t path) (MkVK (Some (path, [(t, 0)])) []).
  Proof.
    split; cbn.
    - split; cbn [k_next k_cell kroots ks_iter ks_kept app flat_map].
      + intros [|a] Ha; [lia|reflexivity].
      + intros [|a]; cbn; auto.
    - split; auto. exists 1. reflexivity.
    - constructor.
  Qed.
  Lemma kgood_reads s v i k : KGood s v -> (reads_key s i k <-> nth_error (vk_kept v) i = Some (Some k)).
  Proof.
    intros G. pose proof (nth_kept _ _ _ i (kg_kept _ _ G)) as N. unfold reads_key. split.
    - intros (a & rc & Q & Hc). rewrite Q in N. destruct (nth_error (vk_kept v) i) as [[d|]|]; try easy. destruct N as (r & Hr). congruence.
    - intros Q. rewrite Q in N. destruct (nth_error (ks_kept s) i) as [[a|]|]; try easy. destruct N as (r & Hr). eauto 6.
  Qed.
  Lemma vk_frame os i k : ~ In (KDrop i) os -> forall (v v' : @vkeys K V), vk_run os v = Some v' -> nth_error (vk_kept v) i = Some (Some k) -> nth_error (vk_kept v') i = Some (Some k).
  Proof.
    induction os as [|o os IH]; intros N v v' H Hk; cbn [vk_run] in H; [now injection H as <-|].
    destruct (vk_step o v) as [v1|] eqn:Q; [|discriminate]. apply (IH (fun Hn => N (or_intror Hn)) v1 v' H).
    assert (L : i < length (vk_kept v)) by (apply nth_error_Some; congruence).
    destruct o as [|j|j|]; cbn [vk_step] in Q.
    - destruct (vk_iter v) as [it|]; [|discriminate]. destruct (iter_step it); injection Q as <-; cbn; auto. now rewrite nth_error_app1.
    - destruct (nth_error (vk_kept v) j) as [[k'|]|]; try discriminate. injection Q as <-. cbn. now rewrite nth_error_app1.
    - destruct (nth_error (vk_kept v) j) as [[k'|]|] eqn:Qj; try discriminate. injection Q as <-. cbn.
      assert (Nij : i <> j) by (intros ->; apply N; now left). rewrite <- Hk. clear - Nij L Qj.
      assert (Lj : j < length (vk_kept v)) by (apply nth_error_Some; congruence). clear Qj. revert i j Nij L Lj.
      induction (vk_kept v) as [|x l IH]; intros i j Nij L Lj; cbn in L; [lia|]. destruct i, j; cbn; auto; try congruence. apply (IH i j); cbn in Lj; lia.
    - destruct (vk_iter v); [|discriminate]. now injection Q as <-.
  Qed.

  (** ** C63 *)
  (** Whatever the caller keeps, clones and drops, and however far the iteration went: no freed buffer is touched, and every
      kept key reads exactly what it would read if each were a separate copy. *)
  Theorem C63_kept_keys_read_as_copies (t : tree) (path : list K) (os : list kop) v :
    vk_run os (MkVK (Some (path, [(t, 0)])) []) = Some v ->
    exists s, k_run os (k_init t path) = Some s /\ forall i k, reads_key s i k <-> nth_error (vk_kept v) i = Some (Some k).
  Proof.
    intros H. destruct (krun_good os _ _ _ (kinit_good t path) H) as (s & Q & G). exists s. split; auto. intros i k. now apply kgood_reads.
  Qed.
  (** A kept key never changes while it is kept. *)
  Theorem C63_key_stable (t : tree) (path : list K) (os1 os2 : list kop) v i k s1 s2 :
    vk_run (os1 ++ os2) (MkVK (Some (path, [(t, 0)])) []) = Some v ->
    k_run os1 (k_init t path) = Some s1 -> k_run os2 s1 = Some s2 -> ~ In (KDrop i) os2 ->
    reads_key s1 i k -> reads_key s2 i k.
  Proof.
    intros H Q1 Q2 N R.
    assert (Vapp : forall l1 l2 w w2, vk_run (l1 ++ l2) w = Some w2 -> exists w1 : @vkeys K V, vk_run l1 w = Some w1 /\ vk_run l2 w1 = Some w2).
    { induction l1 as [|o l1 IH]; intros l2 w w2 Hr; cbn [vk_run app] in *; [eauto|]. destruct (vk_step o w); [|discriminate]. eauto. }
    destruct (Vapp _ _ _ _ H) as (v1 & H1 & H2).
    destruct (krun_good os1 _ _ _ (kinit_good t path) H1) as (s1' & Q1' & G1). rewrite Q1 in Q1'. injection Q1' as <-.
    destruct (krun_good os2 _ _ _ G1 H2) as (s2' & Q2' & G2). rewrite Q2 in Q2'. injection Q2' as <-.
    apply (kgood_reads _ _ _ _ G2). apply (vk_frame os2 i k N v1 v H2). now apply (kgood_reads _ _ _ _ G1).
  Qed.
  (** Nothing leaks: with the iterator and all kept keys dropped, no buffer is left. *)
  Theorem C63_no_leak (t : tree) (path : list K) (os : list kop) v s :
    vk_run os (MkVK (Some (path, [(t, 0)])) []) = Some v -> k_run os (k_init t path) = Some s ->
    vk_iter v = None -> (forall i k, nth_error (vk_kept v) i <> Some (Some k)) -> forall a, k_cell (ks_heap s) a = None.
  Proof.
    intros H Q Hi Hk a. destruct (krun_good os _ _ _ (kinit_good t path) H) as (s' & Q' & G). rewrite Q in Q'. injection Q' as <-.
    pose proof (ki_count _ _ (kg_inv _ _ G) a) as C. pose proof (kg_iter _ _ G) as It. rewrite Hi in It.
    assert (E : kroots s = []).
    { unfold kroots. destruct (ks_iter s) as [[b st]|]; [easy|]. cbn [app].
      pose proof (kg_kept _ _ G) as F. clear - F Hk. induction F as [|o k l ks O F IH]; auto. cbn. destruct o as [b|], k as [d|]; try easy.
      - exfalso. apply (Hk 0 d). reflexivity.
      - apply IH. intros i d. apply (Hk (S i)). }
    rewrite E in C. destruct (k_cell (ks_heap s) a) as [[rc d]|]; auto. cbn in C. lia.
  Qed.
End KeyFacts.

(** a tree with keys [1], [1;2], [3]; the caller keeps the first two keys, drops the first, clones the second *)
Definition kt : rtree nat nat := Node [] None [Node [1] (Some 10) [Node [2] (Some 20) []]; Node [3] (Some 30) []].
Definition kops : list kop := repeat KRound 5 ++ [KDrop 0; KClone 1] ++ repeat KRound 8 ++ [KStop].
Example kops_valid : exists v, vk_run kops (MkVK (Some ([], [(kt, 0)])) []) = Some v /\ vk_kept v = [None; Some [1; 2]; Some [1; 2]; Some [3]] /\ vk_iter v = None.
Proof. eexists. now vm_compute. Qed.
(** the buffer is shared by the iterator and a kept key at some point *)
Example kops_share : exists h, exists st, k_run (repeat KRound 3) (k_init kt []) = Some (MkK h (Some (0, st)) [Some 0]) /\ k_cell h 0 = Some (2, [1]).
Proof. eexists _, _. now vm_compute. Qed.

Print Assumptions C63_kept_keys_read_as_copies.
Print Assumptions C63_key_stable.
Print Assumptions C63_no_leak.

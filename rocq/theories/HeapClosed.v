(** An operation that changes a tree in place stays within the vectors that the tree had, the shared empty vector and new
    ones: it never makes the tree share a vector with its argument. *)
From Verif Require Export HeapApiRefine.

Section HeapClosed.
  Context {K V : Type} (kcmp : K -> K -> comparison) (strat : nat -> nat -> bool) (arc : bool).
  Notation tree := (rtree K V).
  Notation node := (node K V).
  Notation heap := (heap K V).
  Implicit Types (h : heap) (n m : node) (ns : list node).
  (** the vectors it may use; whether nodes that are still in an archive may occur *)
  Context (S : nat -> Prop) (S0 : S 0) (lazy : Prop).

  Definition nin n : Prop := match n_kids n with inr a => S a | inl _ => lazy end.
  Record closed h : Prop := { cl_in : forall a rc ns, S a -> h_cell h a = Some (rc, ns) -> Forall nin ns; cl_new : forall a, h_next h <= a -> S a }.

  Lemma nin_prefix p n : nin n -> nin (n_set_prefix p n).
  Proof. auto. Qed.
  Lemma nin_value v n : nin n -> nin (n_set_value v n).
  Proof. auto. Qed.
  Lemma closed_upd h a rc ns : closed h -> (S a -> Forall nin ns) -> closed (h_upd h a (Some (rc, ns))).
  Proof.
    intros [A B] X. constructor; [|exact B]. intros b rc' ns' Hb. cbn [h_upd h_cell]. destruct (b =? a) eqn:E; [|now apply A].
    apply Nat.eqb_eq in E. subst b. intros [= <- <-]. auto.
  Qed.
  Lemma closed_none h a : closed h -> closed (h_upd h a None).
  Proof. intros [A B]. constructor; [|exact B]. intros b rc' ns' Hb. cbn [h_upd h_cell]. destruct (b =? a); [discriminate|now apply A]. Qed.
  Lemma closed_new h ns h' a : closed h -> Forall nin ns -> arc_new h ns = (h', a) -> closed h' /\ S a.
  Proof.
    intros [A B] F [= <- <-]. split; [|apply B; lia]. constructor.
    - intros b rc ns' Hb. cbn [h_cell]. destruct (b =? h_next h); [now intros [= <- <-]|now apply A].
    - intros b. cbn [h_next]. intros Hb. apply B. lia.
  Qed.
  Lemma closed_clone h a h' : closed h -> arc_clone h a = Some h' -> closed h'.
  Proof. intros C. unfold arc_clone. destruct (h_cell h a) as [[rc ns]|] eqn:Q; [|discriminate]. intros [= <-]. apply closed_upd; auto. intros Sa. now apply (cl_in h C a rc). Qed.
  Lemma closed_nclone h n h' n' : closed h -> node_clone h n = Some (h', n') -> closed h' /\ n' = n.
  Proof.
    intros C. unfold node_clone. destruct (n_kids n) as [ts|a]; [intros [= <- <-]; auto|]. destruct (arc_clone h a) as [h1|] eqn:Q; [|discriminate].
    intros [= <- <-]. split; auto. eapply closed_clone; eauto.
  Qed.
  Lemma closed_nclones ns : forall h h' ns', closed h -> nodes_clone h ns = Some (h', ns') -> closed h' /\ ns' = ns.
  Proof.
    induction ns as [|n ns IH]; intros h h' ns' C; cbn [nodes_clone]; [intros [= <- <-]; auto|].
    destruct (node_clone h n) as [[h1 n1]|] eqn:Q1; [|discriminate]. destruct (nodes_clone h1 ns) as [[h2 l]|] eqn:Q2; [|discriminate]. intros [= <- <-].
    destruct (closed_nclone _ _ _ _ C Q1) as [C1 ->]. destruct (IH _ _ _ C1 Q2) as [C2 ->]. auto.
  Qed.
  Lemma closed_make_mut h a h' a' : closed h -> S a -> make_mut h a = Some (h', a') -> closed h' /\ S a'.
  Proof.
    intros C Sa. unfold make_mut. destruct (h_cell h a) as [[[|[|rc]] ns]|] eqn:Q; try discriminate.
    - intros [= <- <-]. auto.
    - destruct (nodes_clone h ns) as [[h1 ms]|] eqn:Q1; [|discriminate]. destruct (closed_nclones _ _ _ _ C Q1) as [C1 ->].
      destruct (arc_new h1 ns) as [h2 b] eqn:Qn. destruct (closed_new h1 ns h2 b C1) as [C2 Sb]; auto.
      { now apply (cl_in h C a _ _ Sa Q). }
      destruct (h_cell h2 a) as [[[|[|r]] ks]|] eqn:Q2; try discriminate. intros [= <- <-]. split; auto. apply closed_upd; auto. intros _. now apply (cl_in h2 C2 a _ _ Sa Q2).
  Qed.
  Lemma closed_children_mut h n h' n' a : closed h -> nin n -> children_mut h n = Some (h', n', a) -> closed h' /\ S a /\ n_kids n' = inr a /\ n_prefix n' = n_prefix n.
  Proof.
    intros C N. unfold children_mut, force, nin in *. destruct (n_kids n) as [ts|b].
    - destruct (arc_new h (map shallow ts)) as [h1 b] eqn:Qn. destruct (make_mut h1 b) as [[h2 b']|] eqn:Q; [|discriminate]. intros [= <- <- <-].
      destruct (closed_new h (map shallow ts) h1 b C) as [C1 Sb]; auto.
      { apply Forall_forall. intros x Hx. apply in_map_iff in Hx as ([p v l] & <- & _). exact N. }
      destruct (closed_make_mut _ _ _ _ C1 Sb Q). auto.
    - destruct (make_mut h b) as [[h2 b']|] eqn:Q; [|discriminate]. intros [= <- <- <-]. destruct (closed_make_mut _ _ _ _ C N Q). auto.
  Qed.
  Lemma closed_drop_loop fuel : forall h work h', closed h -> drop_loop fuel h work = Some h' -> closed h'.
  Proof.
    induction fuel as [|fuel IH]; intros h work h' C; [discriminate|]. cbn [drop_loop]. destruct work as [|n work]; [now intros [= <-]|].
    destruct (n_kids n) as [ts|b]; [now apply IH|]. destruct (h_cell h b) as [[[|[|r]] ns]|] eqn:Q; try discriminate; apply IH.
    - now apply closed_none.
    - apply closed_upd; auto. intros Sb. now apply (cl_in h C b _ _ Sb Q).
  Qed.
  Lemma closed_drop h work h' : closed h -> drop_all h work = Some h' -> closed h'.
  Proof. apply closed_drop_loop. Qed.
  Lemma closed_n_new p v ns h h' n : closed h -> Forall nin ns -> n_new arc p v ns h = Some (h', n) -> closed h' /\ nin n.
  Proof.
    intros C F. assert (W : forall h1 a, arc_new h ns = (h1, a) -> closed h1 /\ nin (MkN p v (inr a))) by (intros h1 a Q; now apply (closed_new h ns)).
    unfold n_new, wrap. destruct arc, ns as [|x ns].
    - destruct (arc_clone h 0) as [h1|] eqn:Q; [|discriminate]. intros [= <- <-]. split; [eapply closed_clone; eauto|exact S0].
    - destruct (arc_new h (x :: ns)) as [h1 a] eqn:Q. intros [= <- <-]. auto.
    - destruct (arc_new h []) as [h1 a] eqn:Q. intros [= <- <-]. auto.
    - destruct (arc_new h (x :: ns)) as [h1 a] eqn:Q. intros [= <- <-]. auto.
  Qed.

  (** what is done to a tree, and to a vector *)
  Definition safe_n h (r : option (heap * node)) : Prop := closed h -> forall h' n', r = Some (h', n') -> closed h' /\ nin n'.
  Definition safe_v (f : heap -> list node -> option (heap * list node)) : Prop :=
    forall h ns h' ns', closed h -> Forall nin ns -> f h ns = Some (h', ns') -> closed h' /\ Forall nin ns'.
  Lemma safe_with f h n : safe_v f -> nin n -> safe_n h (with_children f h n).
  Proof.
    intros Sf N C h' n'. unfold with_children. destruct (children_mut h n) as [[[h1 n1] a]|] eqn:Q; [|discriminate].
    destruct (closed_children_mut _ _ _ _ _ C N Q) as (C1 & Sa & Ka & _). destruct (h_cell h1 a) as [[rc ns]|] eqn:Qa; [|discriminate].
    destruct (f (h_upd h1 a None) ns) as [[h2 ns']|] eqn:Qf; [|discriminate]. intros [= <- <-].
    destruct (Sf _ _ _ _ (closed_none h1 a C1) (cl_in h1 C1 a rc ns Sa Qa) Qf) as [C2 F2]. split; [now apply closed_upd|]. unfold nin. now rewrite Ka.
  Qed.
  Lemma safe_push x : nin x -> safe_v (vec_push x).
  Proof. intros N h ns h' ns' C F [= <- <-]. split; auto. apply Forall_app. auto. Qed.
  Lemma safe_clear : safe_v vec_clear.
  Proof. intros h ns h' ns' C F. unfold vec_clear. destruct (drop_all h ns) as [h1|] eqn:Q; [|discriminate]. intros [= <- <-]. split; [eapply closed_drop; eauto|constructor]. Qed.
  Lemma safe_retain : safe_v vec_retain.
  Proof.
    intros h ns. revert h. induction ns as [|x ns IH]; intros h h' ns' C F; cbn [vec_retain]; [intros [= <- <-]; auto|]. inversion F as [|? ? Fx F']; subst.
    destruct (n_is_empty h x) as [[]|]; [| |discriminate].
    - destruct (drop_all h [x]) as [h1|] eqn:Q; [|discriminate]. apply IH; auto. eapply closed_drop; eauto.
    - destruct (vec_retain h ns) as [[h1 l]|] eqn:Q; [|discriminate]. intros [= <- <-]. destruct (IH _ _ _ C F' Q). auto.
  Qed.
  Lemma safe_sort : safe_v (vec_sort kcmp).
  Proof.
    intros h ns h' ns' C F. unfold vec_sort. destruct (_ || _); [|discriminate]. intros [= <- <-]. split; auto.
    apply Forall_forall. intros x Hx. rewrite Forall_forall in F. apply F. eapply Permutation.Permutation_in; [|exact Hx]. apply sort_by_perm.
  Qed.
  Lemma safe_split h n k : nin n -> safe_n h (h_split arc h n k).
  Proof.
    intros N C h' n'. unfold h_split. destruct (k <? _); [|discriminate]. destruct (n_new arc _ None [] h) as [[h1 s]|] eqn:Q; [|discriminate].
    destruct (closed_n_new _ _ _ _ _ _ C (Forall_nil _) Q) as [C1 Ns]. apply safe_with; auto. apply safe_push. exact N.
  Qed.
  Lemma nin_prepend h n q n' : nin n -> h_prepend h n q = Some n' -> nin n'.
  Proof. intros N. unfold h_prepend. destruct q; [now intros [= <-]|]. destruct (n_is_empty h n) as [[]|]; intros [= <-]; auto. Qed.
  Lemma safe_collapse h n : nin n -> safe_n h (h_collapse h n).
  Proof.
    intros N C h' n'. unfold h_collapse. destruct (children_mut h n) as [[[h1 n1] a]|] eqn:Q; [|discriminate].
    destruct (closed_children_mut _ _ _ _ _ C N Q) as (C1 & Sa & Ka & _). destruct (h_cell h1 a) as [[rc ns]|] eqn:Qa; [|discriminate].
    pose proof (cl_in h1 C1 a rc ns Sa Qa) as F. destruct (rev ns) as [|c r] eqn:Qr; [discriminate|].
    assert (F' : Forall nin (c :: r)) by (rewrite <- Qr; now apply Forall_rev). inversion F' as [|? ? Nc Fr]; subst.
    destruct (h_prepend _ c (n_prefix n1)) as [c'|] eqn:Qp; [|discriminate]. destruct (drop_all _ [n1]) as [h3|] eqn:Qd; [|discriminate]. intros [= <- <-]. split.
    - eapply closed_drop; [|exact Qd]. apply closed_upd; auto. intros _. now apply Forall_rev.
    - eapply nin_prepend; eauto.
  Qed.
  Lemma safe_unsplit h n : nin n -> safe_n h (h_unsplit h n).
  Proof.
    intros N C h' n'. unfold h_unsplit. destruct (with_children vec_retain h n) as [[h1 n1]|] eqn:Q; [|discriminate].
    destruct (safe_with vec_retain h n safe_retain N C _ _ Q) as [C1 N1]. destruct (kids_of h1 n1) as [ns|]; [|discriminate].
    destruct (match n_value n1, ns with None, [_] => h_collapse h1 n1 | _, _ => Some (h1, n1) end) as [[h2 n2]|] eqn:Q2; [|discriminate].
    assert (X : closed h2 /\ nin n2).
    { destruct (n_value n1); [injection Q2 as <- <-; auto|]. destruct ns as [|x [|y ns]]; try (injection Q2 as <- <-; auto). eapply safe_collapse; eauto. }
    destruct X as [C2 N2]. destruct (n_is_empty h2 n2) as [[]|]; intros [= <- <-]; auto.
  Qed.

  (** a deep copy is new whatever is copied *)
  Lemma safe_mat fuel : forall h m k, safe_n h (h_mat arc fuel h m k).
  Proof.
    induction fuel as [|fuel IH]; intros h m k C h' n'; cbn [h_mat]; [discriminate|]. destruct (k <? _); [|discriminate]. destruct (kids_of h m) as [ns|]; [|discriminate].
    match goal with |- context [?g h ns] => set (go := g) end.
    assert (G : forall ns h h' l, closed h -> go h ns = Some (h', l) -> closed h' /\ Forall nin l).
    { clear - IH. induction ns as [|x ns IHn]; intros h h' l C; cbn; [intros [= <- <-]; auto|].
      destruct (h_mat arc fuel h x 0) as [[h1 x']|] eqn:Q; [|discriminate]. fold go. destruct (go h1 ns) as [[h2 l']|] eqn:Q2; [|discriminate].
      intros [= <- <-]. destruct (IH _ _ _ C _ _ Q) as [C1 N1]. destruct (IHn _ _ _ C1 Q2). auto. }
    destruct (go h ns) as [[h1 l]|] eqn:Q; [|discriminate]. destruct (G _ _ _ _ C Q) as [C1 F1]. now apply closed_n_new.
  Qed.

  (** the merge: its state is closed, and what it owns is in [S] *)
  Definition mok (s : @hst K V) : Prop := closed (hs_h s) /\ Forall nin (hs_tgt s) /\ Forall nin (hs_src s).
  Definition mkeep (o : out (@hst K V)) : Prop := match o with Cont s | Stop s => mok s | _ => True end.
  Lemma mkeep_a s k take : mok s -> mkeep (hs_adv_a s k take).
  Proof.
    intros (C & T & R). unfold hs_adv_a. assert (R1 : Forall nin (firstn k (hs_src s)) /\ Forall nin (skipn k (hs_src s))) by (apply Forall_app; now rewrite firstn_skipn).
    destruct R1 as [R1 R2]. destruct take; [cbn; split; auto; split; auto; apply Forall_app; auto|].
    destruct (drop_all (hs_h s) (firstn k (hs_src s))) as [h1|] eqn:Q; [|exact Logic.I]. cbn. split; [eapply closed_drop; eauto|auto].
  Qed.
  Lemma mkeep_ext fuel conv k : forall s, mok s -> mkeep (hs_extend arc fuel conv k s).
  Proof.
    induction k as [|k IH]; intros s M; cbn [hs_extend]; [exact M|]. destruct (hs_b s) as [|y b]; [exact M|]. destruct conv; [|exact Logic.I].
    destruct (h_mat arc fuel (hs_h s) y 0) as [[h1 x]|] eqn:Q; [|exact Logic.I]. destruct M as (C & T & R). destruct (safe_mat _ _ _ _ C _ _ Q) as [C1 N1].
    apply IH. split; auto. split; auto. cbn. apply Forall_app. auto.
  Qed.
  Lemma mkeep_b fuel conv s k take : mok s -> mkeep (hs_adv_b arc fuel conv s k take).
  Proof. intros M. unfold hs_adv_b. destruct take; [now apply mkeep_ext|]. exact M. Qed.
  Lemma mkeep_bind o k : mkeep o -> (forall s, mok s -> mkeep (k s)) -> mkeep (obind o k).
  Proof. destruct o; cbn; auto. Qed.
  Definition safe_rec (rec : heap -> node -> node -> option (heap * node)) : Prop := forall h n m, nin n -> safe_n h (rec h n m).
  Lemma mkeep_coll rec fuel conv s : safe_rec rec -> mok s -> mkeep (h_coll arc rec fuel conv s).
  Proof.
    intros SR (C & T & R). unfold h_coll. destruct (hs_src s) as [|av a']; [exact Logic.I|]. destruct (hs_b s) as [|bv b']; [exact Logic.I|]. inversion R as [|? ? Na Ra]; subst.
    destruct (rec (hs_h s) av bv) as [[h1 av']|] eqn:Q; [|exact Logic.I]. destruct (SR _ _ _ Na C _ _ Q) as [C1 N1]. destruct (n_is_empty h1 av') as [e|]; [|exact Logic.I].
    apply mkeep_bind; [|intros s' M'; now apply mkeep_b]. apply mkeep_a. split; auto. split; auto. cbn. auto.
  Qed.
  Lemma safe_merge rec fuel ta tb conv rhs : safe_rec rec -> safe_v (h_merge kcmp strat arc rec fuel ta tb conv rhs).
  Proof.
    intros SR h ns h' ns' C F. unfold h_merge. set (O := h_op kcmp arc rec fuel ta tb conv).
    assert (Ms : msim O O (fun s1 s2 => s1 = s2 /\ mok s1)).
    { assert (W : forall o, mkeep o -> osim (fun s1 s2 => s1 = s2 /\ mok s1) o o) by (intros [s|s|s|] H; cbn in *; eauto).
      constructor; try (intros s ? [-> M]; apply W); try (intros s ? k [-> M]; apply W).
      - intros ? ? [-> _]. auto.
      - intros ? ? [-> _]. auto.
      - intros ? ? i j x1 x2 y1 y2 [-> _] A1 A2 B1 B2. congruence.
      - now apply mkeep_a.
      - now apply mkeep_b.
      - now apply mkeep_coll. }
    pose proof (merge_sim O O _ Ms strat (MkHst h [] ns rhs) _ (conj eq_refl (conj C (conj (Forall_nil _) F)))) as Sm.
    destruct (merge O strat (MkHst h [] ns rhs)) as [s|s|s|]; cbn in Sm; try discriminate; destruct Sm as (s2 & _ & _ & (C1 & T1 & R1));
      (destruct (drop_all (hs_h s) (hs_src s)) as [h1|] eqn:Q; [|discriminate]); intros [= <- <-]; (split; [eapply closed_drop; eauto|auto]).
  Qed.
  Lemma safe_merge_mat rec fuel ta tb conv that k h n : safe_rec rec -> nin n -> safe_n h (h_merge_mat kcmp strat arc rec fuel ta tb conv that k h n).
  Proof.
    intros SR N C h' n'. unfold h_merge_mat. destruct (h_mat arc fuel h that k) as [[h1 tmp]|] eqn:Q; [|discriminate]. destruct (safe_mat _ _ _ _ C _ _ Q) as [C1 _].
    destruct (with_children _ h1 n) as [[h2 n2]|] eqn:Q2; [|discriminate]. destruct (safe_with _ h1 n (safe_merge rec fuel ta tb conv [tmp] SR) N C1 _ _ Q2) as [C2 N2].
    destruct (drop_all h2 [tmp]) as [h3|] eqn:Q3; [|discriminate]. intros [= <- <-]. split; auto. eapply closed_drop; eauto.
  Qed.
  Lemma safe_merge_kids rec fuel ta tb conv that h n : safe_rec rec -> nin n -> safe_n h (h_merge_kids kcmp strat arc rec fuel ta tb conv that h n).
  Proof. intros SR N C h' n'. unfold h_merge_kids. destruct (kids_of h that) as [rhs|]; [|discriminate]. apply safe_with; auto. now apply safe_merge. Qed.
  Lemma safe_and h r : safe_n h r -> safe_n h (and_unsplit r).
  Proof. intros A C h' n'. unfold and_unsplit. destruct r as [[h1 n1]|]; [|discriminate]. destruct (A C _ _ eq_refl) as [C1 N1]. now apply safe_unsplit. Qed.
  Lemma safe_then h r k : safe_n h r -> (forall h n, nin n -> safe_n h (k h n)) -> safe_n h (and_then r k).
  Proof. intros A B C h' n'. unfold and_then. destruct r as [[h1 n1]|]; [|discriminate]. destruct (A C _ _ eq_refl) as [C1 N1]. now apply B. Qed.
  Lemma safe_ret h n : nin n -> safe_n h (Some (h, n)).
  Proof. intros N C h' n' [= <- <-]. auto. Qed.

  Lemma safe_outer f fuel : safe_rec (h_outer kcmp strat arc f fuel).
  Proof.
    induction fuel as [|fuel IH]; intros h n m N; cbn [h_outer]; [discriminate|]. apply safe_and. destruct (_ && _); [now apply safe_merge_kids|].
    destruct (_ =? _); [now apply safe_merge_mat|]. destruct (_ =? _).
    - apply safe_then; [now apply safe_split|]. intros h1 n1 N1. now apply safe_merge_kids.
    - apply safe_then; [now apply safe_split|]. intros h1 n1 N1 C1 h' n'. destruct (h_mat arc fuel h1 m _) as [[h2 c]|] eqn:Q; [|discriminate].
      destruct (safe_mat _ _ _ _ C1 _ _ Q) as [C2 Nc]. refine (safe_then h2 _ _ _ _ C2 h' n').
      + apply safe_with; auto. now apply safe_push.
      + intros h3 n3 N3. apply safe_with; auto. apply safe_sort.
  Qed.
  Lemma safe_inner f fuel : safe_rec (h_inner kcmp strat arc f fuel).
  Proof.
    induction fuel as [|fuel IH]; intros h n m N; cbn [h_inner]; [discriminate|]. apply safe_and. destruct (_ && _); [now apply safe_merge_kids|].
    destruct (_ =? _); [now apply safe_merge_mat|]. destruct (_ =? _).
    - apply safe_then; [now apply safe_split|]. intros h1 n1 N1. now apply safe_merge_kids.
    - apply safe_with; auto. apply safe_clear.
  Qed.
  Lemma safe_left f fuel : safe_rec (h_left kcmp strat arc f fuel).
  Proof.
    induction fuel as [|fuel IH]; intros h n m N; cbn [h_left]; [discriminate|]. apply safe_and. destruct (_ && _); [now apply safe_merge_kids|].
    destruct (_ =? _); [now apply safe_merge_mat|]. destruct (_ =? _).
    - apply safe_then; [now apply safe_split|]. intros h1 n1 N1. now apply safe_merge_kids.
    - now apply safe_ret.
  Qed.
  Lemma safe_remove f fuel : safe_rec (h_remove kcmp strat arc f fuel).
  Proof.
    induction fuel as [|fuel IH]; intros h n m N; cbn [h_remove]; [discriminate|]. apply safe_and. destruct (_ && _).
    { destruct (hit f _); [apply safe_with; auto; apply safe_clear|now apply safe_merge_kids]. }
    destruct (_ =? _).
    { destruct (hit f _); [apply safe_with; auto; apply safe_clear|]. apply safe_then; [now apply safe_split|]. intros h1 n1 N1. now apply safe_merge_kids. }
    destruct (_ =? _); [now apply safe_merge_mat|now apply safe_ret].
  Qed.
  Lemma safe_retain_with f fuel : safe_rec (h_retain kcmp strat arc f fuel).
  Proof.
    induction fuel as [|fuel IH]; intros h n m N; cbn [h_retain]; [discriminate|]. apply safe_and. destruct (_ && _).
    { destruct (hit f _); [now apply safe_ret|now apply safe_merge_kids]. }
    destruct (_ =? _).
    { destruct (hit f _); [now apply safe_ret|]. apply safe_then; [now apply safe_split|]. intros h1 n1 N1. now apply safe_merge_kids. }
    destruct (_ =? _); [now apply safe_merge_mat|]. apply safe_with; auto. apply safe_clear.
  Qed.
  Lemma safe_insert F k v h n : nin n -> safe_n h (h_insert kcmp strat arc F k v h n).
  Proof.
    intros N C h' n'. unfold h_insert. destruct (n_new arc k (Some v) [] h) as [[h1 tmp]|] eqn:Q; [|discriminate]. destruct (closed_n_new _ _ _ _ _ _ C (Forall_nil _) Q) as [C1 _].
    destruct (h_outer kcmp strat arc _ F h1 n tmp) as [[h2 n1]|] eqn:Q2; [|discriminate]. destruct (safe_outer _ _ _ _ _ N C1 _ _ Q2) as [C2 N2].
    destruct (drop_all h2 [tmp]) as [h3|] eqn:Q3; [|discriminate]. intros [= <- <-]. split; auto. eapply closed_drop; eauto.
  Qed.

  (** everything that can be reached is in [S] *)
  Lemma closed_reach h n a : closed h -> nin n -> reach h n a -> S a.
  Proof.
    intros C N R. induction R as [n a Q|n a rc ns c b Q Ha Hc R IH]; unfold nin in N; rewrite Q in N; auto.
    apply IH. pose proof (cl_in h C a rc ns N Ha) as F. rewrite Forall_forall in F. auto.
  Qed.
End HeapClosed.

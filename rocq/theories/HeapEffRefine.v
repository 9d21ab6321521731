(** The five in-place combinations of HeapEffModel.v refine those of RadixEffModel.v. *)
From Coq Require Import Permutation.
From Verif Require Export HeapEffFacts.

Section HeapEffRefine.
  Context {K V : Type} (kcmp : K -> K -> comparison) (strat : nat -> nat -> bool) (arc : bool) {E : Type}.
  Notation tree := (rtree K V).
  Notation node := (node K V).
  Notation heap := (heap K V).
  Notation WO := (WO kcmp).
  Notation wfc := (wfc (kcmp := kcmp)).
  Implicit Types (h : heap) (ns C : list node) (ts : list tree) (e : E).
  Notation eyield1 := (eyield1 (E := E)).

  (** [rec2] refines [rec1] on well-ordered arguments of total size below [F] *)
  Definition erecok (rec1 : tree -> tree -> E -> done (tree * E)) (rec2 : heap -> node -> node -> E -> done (heap * node * E)) (F : nat) : Prop :=
    forall h C av bv x y e, Inv h (av :: C) -> St h C -> den h av x -> within h C bv -> den h bv y ->
      t_size x + t_size y < F -> WO x -> WO y -> eyield1 h C (rec2 h av bv e) (rec1 x y e).

  Lemma kids_wo p v (c : list tree) : WO (Node p v c) -> forall x, In x c -> WO x /\ t_prefix x <> [].
  Proof. intros W x Hx. pose proof (wf_wfc _ _ W) as Wc. destruct (wfc_In _ _ _ Wc Hx) as (? & ? & _). split; auto. Qed.

  Lemma merge_kids_e rec1 rec2 F na ta tb conv h C n m p v a pu vu cu e : erecok rec1 rec2 F -> (tb = true -> conv = true) ->
    Inv h (n :: C) -> St h C -> den h n (Node p v a) -> within h C m -> den h m (Node pu vu cu) ->
    (forall x, In x a -> t_size x <= na) -> na + t_size (Node pu vu cu) <= F ->
    (forall x, In x a -> WO x) -> WO (Node pu vu cu) ->
    eyield1 h C (he_merge_kids kcmp strat arc rec2 F ta tb conv m h n e) (under_root p v (echildren_with kcmp strat rec1 ta tb (conv1 conv) a cu e)).
  Proof.
    intros Hr Ht I S D W Du Za Hs Wa Wb. destruct (kids_of_ok _ _ _ _ _ Du) as (_ & _ & bs & Qb & Db).
    unfold he_merge_kids. rewrite Qb. eapply with_children_e; eauto. intros h1 ns I1 D1 F1 M1.
    pose proof (kids_within _ _ _ _ W Qb) as Wb'. pose proof (size_pos (Node pu vu cu)).
    eapply (echildren_ok kcmp strat arc rec1 rec2 F na (t_size (Node pu vu cu) - 1) conv); eauto.
    - intros. eapply Hr; eauto. lia.
    - lia.
    - eapply St_frame; eauto.
    - eapply (frame_den _ _ C F1); eauto.
    - intros y Hy. eapply frame_within; eauto.
    - intros x Hx. pose proof (size_children (Node pu vu cu) x Hx). lia.
    - intros y Hy. eapply kids_wo; eauto.
  Qed.
  Lemma merge_mat_e rec1 rec2 F na ta tb conv h C n m p v a u k u' e : erecok rec1 rec2 F -> (tb = true -> conv = true) ->
    Inv h (n :: C) -> St h C -> den h n (Node p v a) -> within h C m -> den h m u ->
    (forall x, In x a -> t_size x <= na) -> na + t_size u < F -> mat_short u k = Ok u' ->
    (forall x, In x a -> WO x) -> WO u' -> t_prefix u' <> [] ->
    eyield1 h C (he_merge_mat kcmp strat arc rec2 F ta tb conv m k h n e) (under_root p v (echildren_with kcmp strat rec1 ta tb (conv1 conv) a [u'] e)).
  Proof.
    intros Hr Ht I S D W Du Za Hs Hm Wa Wu Pu. unfold he_merge_mat.
    assert (In1 : incl C (n :: C)) by (intros y Hy; now right).
    destruct (h_mat_ok arc F h (n :: C) m u k u') as (h1 & tmp & -> & I1 & D1 & F1 & M1); auto; [eapply St_incl; eauto|eapply within_incl; eauto|lia|].
    assert (FC : frame h h1 C) by (eapply frame_incl; [|exact F1]; auto).
    assert (In2 : incl C (tmp :: C)) by (intros y Hy; now right).
    assert (Y : eyield1 h1 (tmp :: C) (he_with_children (he_merge kcmp strat arc rec2 F ta tb conv [tmp] e) h1 n)
                  (under_root p v (echildren_with kcmp strat rec1 ta tb (conv1 conv) a [u'] e))).
    { eapply with_children_e; [eapply inv_perm; [apply perm_swap|exact I1]|apply (frame_pres _ _ _ F1); [now left|exact D]|].
      intros h2 ns I2 D2 F2 M2. eapply (echildren_ok kcmp strat arc rec1 rec2 F na (t_size u') conv); eauto.
      - intros. eapply Hr; eauto. rewrite (mat_short_size _ _ _ Hm) in *. lia.
      - rewrite (mat_short_size _ _ _ Hm). lia.
      - eapply St_frame; [exact F2|]. eapply St_incl; [exact In2|]. eapply St_frame; eauto.
      - constructor; [|constructor]. apply (frame_pres _ _ _ F2); auto. now left.
      - intros y [<-|[]]. right. left. now left.
      - intros x [<-|[]]. lia.
      - intros y [<-|[]]. auto. }
    assert (Fin : forall h2 n2 t, owns h1 (tmp :: C) h2 n2 t -> exists h3, drop_all h2 [tmp] = Some h3 /\ owns h C h3 n2 t).
    { intros h2 n2 t (I2 & D2 & F2 & M2).
      destruct (drop_frame h2 [tmp] (n2 :: C)) as (h3 & Q3 & I3 & F3 & M3); [eapply inv_perm; [apply perm_swap|exact I2]|].
      exists h3. split; auto. split; auto. split; [apply (frame_pres _ _ _ F3); auto; now left|]. split.
      - eapply frame_trans; [exact FC|]. eapply frame_trans; [eapply frame_incl; [exact In2|exact F2]|]. eapply frame_incl; [|exact F3]. intros y Hy. now right.
      - eapply mono_trans; [exact M1|]. eapply mono_trans; eauto. }
    destruct (under_root p v _) as [[t e']|[t e']|]; cbn [HeapEffFacts.eyield1] in *; [| |exact Logic.I];
      destruct Y as (h2 & n2 & -> & O); destruct (Fin _ _ _ O) as (h3 & -> & O3); eexists _, _; (split; [reflexivity|exact O3]).
  Qed.

  (** ** The parts of the five operations *)
  Definition eunsplit (d : done (tree * E)) : done (tree * E) :=
    match d with Done (t, e) => Done (t_unsplit t, e) | _ => d end.
  Lemma efinish_eq p v (r : done (list tree * E)) : efinish p v r = eunsplit (under_root p v r).
  Proof. now destruct r as [[c e]|[c e]|]. Qed.
  Lemma unsplit_e h C r d : eyield1 h C r d -> eyield1 h C (he_unsplit r) (eunsplit d).
  Proof.
    destruct d as [[t e]|[t e]|]; cbn [HeapEffFacts.eyield1 eunsplit]; auto.
    - intros (h1 & n & -> & I & D & F & M). cbn [he_unsplit]. destruct (h_unsplit_ok h1 C n t I D) as (h2 & n2 & -> & I2 & D2 & F2 & M2).
      exists h2, n2. split; auto. eapply owns_trans; [exact F|exact M|]. split; auto.
    - intros (h1 & n & -> & O). exists h1, n. auto.
  Qed.
  Lemma lift_e h C r t k d : yield1 h C r t ->
    (forall h1 n, Inv h1 (n :: C) -> den h1 n t -> frame h h1 C -> mono h h1 -> eyield1 h1 C (k h1 n) d) -> eyield1 h C (he_lift r k) d.
  Proof. intros (h1 & n & -> & I & D & F & M) H. eapply eyield1_trans; [exact F|exact M|]. cbn [he_lift]. now apply H. Qed.
  Lemma done_e h C n t e : Inv h (n :: C) -> den h n t -> eyield1 h C (Done (h, n, e)) (Done (t, e)).
  Proof. intros I D. exists h, n. split; auto. split; auto. split; auto. split; [apply frame_refl|apply mono_refl]. Qed.
  Lemma unwound_e h C n t e : Inv h (n :: C) -> den h n t -> eyield1 h C (Unwound (h, n, e)) (Unwound (t, e)).
  Proof. intros I D. exists h, n. split; auto. split; auto. split; auto. split; [apply frame_refl|apply mono_refl]. Qed.
  Lemma clear_e h C n p v a e : Inv h (n :: C) -> den h n (Node p v a) -> eyield1 h C (he_clear h n e) (Done (Node p None [], e)).
  Proof. intros I D. unfold he_clear. eapply lift_e; [eapply clear_yield; eauto|]. intros h1 n1 I1 D1 _ _. now apply done_e. Qed.
  (** an update of the value, then more *)
  Lemma value_e h C n p v c (r : option V * E * bool) k k' : Inv h (n :: C) -> den h n (Node p v c) ->
    (forall n1 v1 e1, Inv h (n1 :: C) -> den h n1 (Node p v1 c) -> eyield1 h C (he_unsplit (k n1 e1)) (k' v1 e1)) ->
    eyield1 h C (he_unsplit (he_value h n r k)) (evalue p c r k').
  Proof.
    intros I D H. destruct r as [[v1 e1] ok]. unfold he_value, evalue. destruct (n_set_value_ok h C n p v v1 c I D) as [I1 D1]. destruct ok; [now apply H|].
    cbn [he_unsplit]. now apply unwound_e.
  Qed.
  (** a question about the other tree, then more *)
  Lemma hit_e f h C n t w e k k' : Inv h (n :: C) -> den h n t ->
    (forall b e1, eyield1 h C (he_unsplit (k b e1)) (k' b e1)) ->
    eyield1 h C (he_unsplit (he_hit f h n w e k)) (ehit f t w e k').
  Proof.
    intros I D H. unfold he_hit, ehit. destruct w as [w|]; [|apply H]. destruct (f e w) as [e1 [b|]]; [apply H|]. cbn [he_unsplit]. now apply unwound_e.
  Qed.
  Lemma split_wo p v (c : list tree) k : WO (Node p v c) -> k < length p ->
    exists p1 c1, t_split (Node p v c) k = Ok (Node p1 None c1) /\ (forall x, In x c1 -> WO x /\ t_prefix x <> [] /\ t_size x <= t_size (Node p v c)).
  Proof.
    intros W Hk. unfold t_split. apply Nat.ltb_lt in Hk as Hk'. rewrite Hk'. eexists _, _. split; [reflexivity|]. intros x [<-|[]]. split; [|split].
    - apply wf_node in W as [W _]. apply wf_node. split; [auto|discriminate].
    - cbn [t_prefix]. intros Q. apply (f_equal (@length K)) in Q. rewrite skipn_length in Q. cbn in Q. lia.
    - cbn. lia.
  Qed.
  Lemma mat_wo (u : tree) k : WO u -> k < length (t_prefix u) -> exists u', mat_short u k = Ok u' /\ WO u' /\ t_prefix u' <> [].
  Proof.
    intros W Hk. eexists. split; [apply (mat_short_ok (kcmp := kcmp) false); auto|]. destruct u as [p v c]. cbn [t_prefix t_value t_children] in *. split.
    - apply wf_node in W as [W _]. apply wf_node. split; [auto|discriminate].
    - intros Q. apply (f_equal (@length K)) in Q. rewrite skipn_length in Q. cbn in Q. lia.
  Qed.

  Lemma sort_push_ok p1 v1 (c1 : list tree) u : (forall x, In x c1 -> t_prefix x <> []) -> t_prefix u <> [] ->
    exists l, sort_heads kcmp (t_children (Node p1 v1 c1) ++ [u]) = Ok l.
  Proof.
    intros Hc Hu. unfold sort_heads. assert (H : forallb has_head (t_children (Node p1 v1 c1) ++ [u]) = true).
    { apply forallb_forall. intros x Hx. cbn [t_children] in Hx. unfold has_head. apply in_app_or in Hx as [Hx|[<-|[]]].
      - specialize (Hc x Hx). now destruct (t_prefix x).
      - now destruct (t_prefix u). }
    rewrite H, Bool.orb_true_r. eauto.
  Qed.
  Lemma done_unsplit_e h C r t e : eyield1 h C r (Done (t, e)) -> eyield1 h C (he_unsplit r) (Done (t_unsplit t, e)).
  Proof. intros H. now apply (unsplit_e _ _ _ (Done (t, e))). Qed.

  Ltac start := match goal with
    | D : den ?h ?av ?x, Du : den ?h ?bv ?y |- _ =>
        rewrite (den_prefix _ _ _ D), (den_prefix _ _ _ Du);
        try rewrite (den_value _ _ _ D); try rewrite (den_value _ _ _ Du)
    end.
  Ltac unfin := rewrite efinish_eq; apply unsplit_e.
  Lemma kids_case rec1 rec2 F ta tb conv h C n1 v1 bv p v (c : list tree) pu vu cu e : erecok rec1 rec2 F -> (tb = true -> conv = true) ->
    Inv h (n1 :: C) -> St h C -> den h n1 (Node p v1 c) -> within h C bv -> den h bv (Node pu vu cu) ->
    t_size (Node p v c) + t_size (Node pu vu cu) < S F -> WO (Node p v c) -> WO (Node pu vu cu) ->
    eyield1 h C (he_unsplit (he_merge_kids kcmp strat arc rec2 F ta tb conv bv h n1 e)) (efinish p v1 (echildren_with kcmp strat rec1 ta tb (conv1 conv) c cu e)).
  Proof.
    intros Hr Ht I S D W Du Hs Wx Wy. unfin. pose proof (size_pos (Node p v c)). pose proof (size_pos (Node pu vu cu)).
    eapply (merge_kids_e _ _ F (t_size (Node p v c) - 1)); eauto; [intros x Hx; now apply (kid_size p v)|lia|intros x Hx; now apply (kids_wo _ _ _ Wx)].
  Qed.
  Lemma mats_case rec1 rec2 F ta tb conv h C n1 v1 bv p v c pu vu cu e k u : erecok rec1 rec2 F -> (tb = true -> conv = true) ->
    Inv h (n1 :: C) -> St h C -> den h n1 (Node p v1 c) -> within h C bv -> den h bv (Node pu vu cu) ->
    t_size (Node p v c) + t_size (Node pu vu cu) < S F -> WO (Node p v c) -> mat_short (Node pu vu cu) k = Ok u -> WO u -> t_prefix u <> [] ->
    eyield1 h C (he_unsplit (he_merge_mat kcmp strat arc rec2 F ta tb conv bv k h n1 e)) (efinish p v1 (echildren_with kcmp strat rec1 ta tb (conv1 conv) c [u] e)).
  Proof.
    intros Hr Ht I S D W Du Hs Wx Qu Wu Pu. unfin. pose proof (size_pos (Node p v c)). pose proof (size_pos (Node pu vu cu)).
    eapply (merge_mat_e _ _ F (t_size (Node p v c) - 1)); eauto; [intros x Hx; now apply (kid_size p v)|lia|intros x Hx; now apply (kids_wo _ _ _ Wx)].
  Qed.
  (* the children of a node that has just been split: [h1] is the heap after the split *)
  Lemma split_case rec1 rec2 F ta tb conv h h1 C n1 p1 v1 c1 bv p v (c : list tree) pu vu cu e : erecok rec1 rec2 F -> (tb = true -> conv = true) ->
    Inv h1 (n1 :: C) -> St h C -> frame h h1 C -> den h1 n1 (Node p1 v1 c1) -> within h C bv -> den h bv (Node pu vu cu) ->
    t_size (Node p v c) + t_size (Node pu vu cu) < S F -> (forall x, In x c1 -> WO x /\ t_prefix x <> [] /\ t_size x <= t_size (Node p v c)) -> WO (Node pu vu cu) ->
    eyield1 h1 C (he_unsplit (he_merge_kids kcmp strat arc rec2 F ta tb conv bv h1 n1 e)) (efinish p1 v1 (echildren_with kcmp strat rec1 ta tb (conv1 conv) c1 cu e)).
  Proof.
    intros Hr Ht I S Fr D W Du Hs Hc Wy. unfin.
    eapply (merge_kids_e _ _ F (t_size (Node p v c))); eauto; [eapply St_frame; eauto|eapply frame_within; eauto|eapply (frame_den _ _ C Fr); eauto|intros x Hx; now apply Hc|lia|intros x Hx; now apply Hc].
  Qed.
  Lemma unsplit_lift r (k : heap -> node -> done (heap * node * E)) : he_unsplit (he_lift r k) = he_lift r (fun h n => he_unsplit (k h n)).
  Proof. now destruct r as [[h n]|]. Qed.
  Ltac both := match goal with Q : (?a =? ?b) && (?c =? ?d) = true |- _ => apply andb_true_iff in Q as [?Ea ?Eb]; apply Nat.eqb_eq in Ea; apply Nat.eqb_eq in Eb end.
  Ltac tomat Wy n := match type of Wy with WO ?u => destruct (mat_wo u n Wy) as (u' & Qu & Wu & Pu); [cbn [t_prefix]; lia|]; rewrite Qu; cbn [elift] end.
  Ltac tosplit Wx n := match type of Wx with WO (Node ?p ?v ?c) =>
    destruct (split_wo p v c n Wx ltac:(lia)) as (p1 & c1 & Qs & Hc1); rewrite Qs; cbn [elift t_prefix t_value t_children];
    rewrite unsplit_lift; eapply lift_e; [eapply h_split_ok; eauto|]; intros h1 n1 I1 D1 F1 M1 end.

  Lemma eouter_refines f F : forall k, erecok (eouter_with kcmp strat f k) (he_outer kcmp strat arc f F) F.
  Proof.
    induction F as [|F IH]; intros k h C av bv x y e I S D W Du Hs Wx Wy; [lia|]. destruct k as [|k]; [exact Logic.I|].
    cbn [eouter_with he_outer]. specialize (IH k). start.
    destruct x as [p v c], y as [pu vu cu]. cbn [t_prefix t_value t_children] in *. pose proof (cp_le kcmp p pu) as Hn. set (n := common_prefix kcmp p pu) in *.
    destruct ((n =? length p) && (n =? length pu)) eqn:Q1; [|destruct (n =? length p) eqn:Q2; [|destruct (n =? length pu) eqn:Q3]].
    - eapply value_e; eauto. intros n1 v1 e1 I1 D1. now apply (kids_case _ _ F true true true h C n1 v1 bv p v c pu vu cu).
    - cbn [andb] in Q1. apply Nat.eqb_neq in Q1. tomat Wy n. now apply (mats_case _ _ F true true true h C av v bv p v c pu vu cu).
    - apply Nat.eqb_neq in Q2. tosplit Wx n. rewrite (den_value _ _ _ D1). cbn [t_value].
      eapply value_e; eauto. intros n2 v2 e2 I2 D2. now apply (split_case _ _ F true true true h h1 C n2 p1 v2 c1 bv p v c pu vu cu).
    - apply Nat.eqb_neq in Q2, Q3. tosplit Wx n. tomat Wy n.
      destruct (sort_push_ok p1 None c1 u') as (l & Ql); [intros x Hx; now apply Hc1|auto|]. cbn [t_children] in Ql. rewrite Ql. cbn [elift]. apply done_unsplit_e.
      assert (In1 : incl C (n1 :: C)) by (intros z Hz; now right).
      destruct (h_mat_ok arc F h1 (n1 :: C) bv (Node pu vu cu) n u') as (h2 & tmp & -> & I2 & D2 & F2 & M2); auto.
      { eapply St_incl; [exact In1|]. eapply St_frame; eauto. }
      { eapply within_incl; [exact In1|]. eapply frame_within; eauto. }
      { eapply (frame_den _ _ C F1); eauto. }
      { pose proof (size_pos (Node p v c)). lia. }
      assert (FC : frame h1 h2 C) by (eapply frame_incl; [|exact F2]; auto).
      eapply eyield1_trans; [exact FC|exact M2|]. cbn [he_lift].
      apply lift_e with (t := Node p1 None (c1 ++ [u'])).
      + eapply (with_children_in _ [tmp]); [eapply inv_perm; [apply perm_swap|exact I2]|apply (frame_pres _ _ _ F2); [now left|exact D1]|].
        intros h3 ns I3 D3 F3 M3. apply vec_push_ok; auto. apply (frame_pres _ _ _ F3); auto. now left.
      + intros h3 n3 I3 D3 F3 M3. eapply lift_e; [eapply with_children_ok; eauto; intros h4 ns I4 D4 F4 M4; eapply vec_sort_ok; eauto|].
        intros h4 n4 I4 D4 F4 M4. now apply done_e.
  Qed.
  Lemma einner_refines f F : forall k, erecok (einner_with kcmp strat f k) (he_inner kcmp strat arc f F) F.
  Proof.
    induction F as [|F IH]; intros k h C av bv x y e I S D W Du Hs Wx Wy; [lia|]. destruct k as [|k]; [exact Logic.I|].
    cbn [einner_with he_inner]. specialize (IH k). start.
    destruct x as [p v c], y as [pu vu cu]. cbn [t_prefix t_value t_children] in *. pose proof (cp_le kcmp p pu) as Hn. set (n := common_prefix kcmp p pu) in *.
    destruct ((n =? length p) && (n =? length pu)) eqn:Q1; [|destruct (n =? length p) eqn:Q2; [|destruct (n =? length pu) eqn:Q3]].
    - eapply value_e; eauto. intros n1 v1 e1 I1 D1. now apply (kids_case _ _ F false false false h C n1 v1 bv p v c pu vu cu).
    - cbn [andb] in Q1. apply Nat.eqb_neq in Q1. tomat Wy n. destruct (n_set_value_ok h C av p v None c I D) as [I1 D1].
      now apply (mats_case _ _ F false false false h C (n_set_value None av) None bv p v c pu vu cu).
    - apply Nat.eqb_neq in Q2. tosplit Wx n. now apply (split_case _ _ F false false false h h1 C n1 p1 None c1 bv p v c pu vu cu).
    - apply done_unsplit_e. eapply clear_e; eauto.
  Qed.
  Lemma eleft_refines f F : forall k, erecok (eleft_with kcmp strat f k) (he_left kcmp strat arc f F) F.
  Proof.
    induction F as [|F IH]; intros k h C av bv x y e I S D W Du Hs Wx Wy; [lia|]. destruct k as [|k]; [exact Logic.I|].
    cbn [eleft_with he_left]. specialize (IH k). start.
    destruct x as [p v c], y as [pu vu cu]. cbn [t_prefix t_value t_children] in *. pose proof (cp_le kcmp p pu) as Hn. set (n := common_prefix kcmp p pu) in *.
    destruct ((n =? length p) && (n =? length pu)) eqn:Q1; [|destruct (n =? length p) eqn:Q2; [|destruct (n =? length pu) eqn:Q3]].
    - eapply value_e; eauto. intros n1 v1 e1 I1 D1. now apply (kids_case _ _ F true false false h C n1 v1 bv p v c pu vu cu).
    - cbn [andb] in Q1. apply Nat.eqb_neq in Q1. tomat Wy n. now apply (mats_case _ _ F true false false h C av v bv p v c pu vu cu).
    - apply Nat.eqb_neq in Q2. tosplit Wx n. now apply (split_case _ _ F true false false h h1 C n1 p1 None c1 bv p v c pu vu cu).
    - apply done_unsplit_e. now apply done_e.
  Qed.
  Lemma eremove_refines f F : forall k, erecok (eremove_with kcmp strat f k) (he_remove kcmp strat arc f F) F.
  Proof.
    induction F as [|F IH]; intros k h C av bv x y e I S D W Du Hs Wx Wy; [lia|]. destruct k as [|k]; [exact Logic.I|].
    cbn [eremove_with he_remove]. specialize (IH k). start.
    destruct x as [p v c], y as [pu vu cu]. cbn [t_prefix t_value t_children] in *. pose proof (cp_le kcmp p pu) as Hn. set (n := common_prefix kcmp p pu) in *.
    destruct ((n =? length p) && (n =? length pu)) eqn:Q1; [|destruct (n =? length pu) eqn:Q3; [|destruct (n =? length p) eqn:Q2]].
    - eapply hit_e; eauto. intros [|] e1; [apply done_unsplit_e; eapply clear_e; eauto|now apply (kids_case _ _ F true false false h C av v bv p v c pu vu cu)].
    - rewrite andb_true_r in Q1. apply Nat.eqb_neq in Q1. eapply hit_e; eauto. intros [|] e1; [apply done_unsplit_e; eapply clear_e; eauto|].
      tosplit Wx n. now apply (split_case _ _ F true false false h h1 C n1 p1 None c1 bv p v c pu vu cu).
    - apply Nat.eqb_neq in Q3. tomat Wy n. now apply (mats_case _ _ F true false false h C av v bv p v c pu vu cu).
    - apply done_unsplit_e. now apply done_e.
  Qed.
  Lemma eretain_refines f F : forall k, erecok (eretain_with kcmp strat f k) (he_retain kcmp strat arc f F) F.
  Proof.
    induction F as [|F IH]; intros k h C av bv x y e I S D W Du Hs Wx Wy; [lia|]. destruct k as [|k]; [exact Logic.I|].
    cbn [eretain_with he_retain]. specialize (IH k). start.
    destruct x as [p v c], y as [pu vu cu]. cbn [t_prefix t_value t_children] in *. pose proof (cp_le kcmp p pu) as Hn. set (n := common_prefix kcmp p pu) in *.
    destruct (n_set_value_ok h C av p v None c I D) as [I0 D0].
    destruct ((n =? length p) && (n =? length pu)) eqn:Q1; [|destruct (n =? length pu) eqn:Q3; [|destruct (n =? length p) eqn:Q2]].
    - eapply hit_e; eauto. intros [|] e1; [apply done_unsplit_e; now apply done_e|now apply (kids_case _ _ F false false false h C (n_set_value None av) None bv p v c pu vu cu)].
    - rewrite andb_true_r in Q1. apply Nat.eqb_neq in Q1. eapply hit_e; eauto. intros [|] e1; [apply done_unsplit_e; now apply done_e|].
      tosplit Wx n. now apply (split_case _ _ F false false false h h1 C n1 p1 None c1 bv p v c pu vu cu).
    - apply Nat.eqb_neq in Q3. tomat Wy n. now apply (mats_case _ _ F false false false h C (n_set_value None av) None bv p v c pu vu cu).
    - apply done_unsplit_e. eapply clear_e; eauto.
  Qed.
End HeapEffRefine.

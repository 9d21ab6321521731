(** The operations of HeapOps.v refine those of RadixModel.v. *)
From Coq Require Import Permutation.
From Verif Require Export HeapOpsFacts.

Section HeapOpsRefine.
  Context {K V : Type} (kcmp : K -> K -> comparison) (strat : nat -> nat -> bool) (arc : bool).
  Notation tree := (rtree K V).
  Notation node := (node K V).
  Notation heap := (heap K V).
  Implicit Types (h : heap) (ns C : list node) (ts : list tree).

  (** [rec2] refines [rec1] on arguments of total size below [F] *)
  Definition recok (rec1 : tree -> tree -> res tree) (rec2 : heap -> node -> node -> option (heap * node)) (F : nat) : Prop :=
    forall h C av bv x y x', Inv h (av :: C) -> St h C -> den h av x -> within h C bv -> den h bv y ->
      t_size x + t_size y < F -> rec1 x y = Ok x' -> yield1 h C (rec2 h av bv) x'.

  Lemma merge_kids_ok rec1 rec2 F na ta tb conv h C n m p v a pu vu cu l : recok rec1 rec2 F ->
    Inv h (n :: C) -> St h C -> den h n (Node p v a) -> within h C m -> den h m (Node pu vu cu) ->
    (forall x, In x a -> t_size x <= na) -> na + t_size (Node pu vu cu) <= F ->
    children_with kcmp strat rec1 ta tb (conv1 conv) a cu = Ok l ->
    yield1 h C (h_merge_kids kcmp strat arc rec2 F ta tb conv m h n) (Node p v l).
  Proof.
    intros Hr I S D W Du Za Hs H. destruct (kids_of_ok _ _ _ _ _ Du) as (_ & _ & bs & Qb & Db).
    unfold h_merge_kids. rewrite Qb. eapply with_children_ok; eauto. intros h1 ns I1 D1 F1 M1.
    pose proof (kids_within _ _ _ _ W Qb) as Wb. pose proof (size_pos (Node pu vu cu)).
    eapply (children_with_ok kcmp strat arc rec1 rec2 F na (t_size (Node pu vu cu) - 1)); eauto.
    - intros. eapply Hr; eauto. lia.
    - lia.
    - eapply St_frame; eauto.
    - eapply (frame_den _ _ C F1); eauto.
    - intros y Hy. eapply frame_within; eauto.
    - intros x Hx. pose proof (size_children (Node pu vu cu) x Hx). lia.
  Qed.
  Lemma merge_mat_ok rec1 rec2 F na ta tb conv h C n m p v a u k u' l : recok rec1 rec2 F ->
    Inv h (n :: C) -> St h C -> den h n (Node p v a) -> within h C m -> den h m u ->
    (forall x, In x a -> t_size x <= na) -> na + t_size u < F -> mat_short u k = Ok u' ->
    children_with kcmp strat rec1 ta tb (conv1 conv) a [u'] = Ok l ->
    yield1 h C (h_merge_mat kcmp strat arc rec2 F ta tb conv m k h n) (Node p v l).
  Proof.
    intros Hr I S D W Du Za Hs Hm H. unfold h_merge_mat.
    assert (In1 : incl C (n :: C)) by (intros y Hy; now right).
    destruct (h_mat_ok arc F h (n :: C) m u k u') as (h1 & tmp & -> & I1 & D1 & F1 & M1); auto; [eapply St_incl; eauto|eapply within_incl; eauto|lia|].
    assert (FC : frame h h1 C) by (eapply frame_incl; [|exact F1]; auto).
    assert (In2 : incl C (tmp :: C)) by (intros y Hy; now right).
    assert (Y : yield1 h1 (tmp :: C) (with_children (h_merge kcmp strat arc rec2 F ta tb conv [tmp]) h1 n) (Node p v l)).
    { eapply with_children_ok; [eapply inv_perm; [apply perm_swap|exact I1]|apply (frame_pres _ _ _ F1); [now left|exact D]|].
      intros h2 ns I2 D2 F2 M2. eapply (children_with_ok kcmp strat arc rec1 rec2 F na (t_size u')); eauto.
      - intros. eapply Hr; eauto. rewrite (mat_short_size _ _ _ Hm) in *. lia.
      - rewrite (mat_short_size _ _ _ Hm). lia.
      - eapply St_frame; [exact F2|]. eapply St_incl; [exact In2|]. eapply St_frame; eauto.
      - constructor; [|constructor]. apply (frame_pres _ _ _ F2); auto. now left.
      - intros y [<-|[]]. right. left. now left.
      - intros x [<-|[]]. lia. }
    destruct Y as (h2 & n2 & -> & I2 & D2 & F2 & M2).
    destruct (drop_frame h2 [tmp] (n2 :: C)) as (h3 & -> & I3 & F3 & M3); [eapply inv_perm; [apply perm_swap|exact I2]|].
    exists h3, n2. split; auto. split; auto. split; [apply (frame_pres _ _ _ F3); auto; now left|]. split.
    - eapply frame_trans; [exact FC|]. eapply frame_trans; [eapply frame_incl; [exact In2|exact F2]|]. eapply frame_incl; [|exact F3]. intros y Hy. now right.
    - eapply mono_trans; [exact M1|]. eapply mono_trans; eauto.
  Qed.
  Lemma unsplit_yield h C r t : yield1 h C r t -> yield1 h C (and_unsplit r) (t_unsplit t).
  Proof. intros (h1 & n & -> & I & D & F & M). eapply yield1_trans; [exact F|exact M|]. cbn [and_unsplit]. now apply h_unsplit_ok. Qed.
  Lemma then_yield h C r t k t' : yield1 h C r t ->
    (forall h1 n, Inv h1 (n :: C) -> den h1 n t -> frame h h1 C -> mono h h1 -> yield1 h1 C (k h1 n) t') -> yield1 h C (and_then r k) t'.
  Proof. intros (h1 & n & -> & I & D & F & M) H. eapply yield1_trans; [exact F|exact M|]. cbn [and_then]. now apply H. Qed.
  Lemma clear_yield h C n p v a : Inv h (n :: C) -> den h n (Node p v a) -> yield1 h C (with_children vec_clear h (n_set_value None n)) (Node p None []).
  Proof.
    intros I D. destruct (n_set_value_ok h C n p v None a I D) as [I1 D1]. eapply with_children_ok; eauto. intros. now apply vec_clear_ok.
  Qed.
  Lemma same_yield h C n t : Inv h (n :: C) -> den h n t -> yield1 h C (Some (h, n)) t.
  Proof. intros I D. exists h, n. split; auto. split; auto. split; auto. split; [apply frame_refl|apply mono_refl]. Qed.
  Lemma split_shape (t : tree) k t' : t_split t k = Ok t' -> t_prefix t' = firstn k (t_prefix t) /\ t_value t' = None /\
    (forall x, In x (t_children t') -> t_size x <= t_size t).
  Proof.
    destruct t as [p v c]. unfold t_split. destruct (k <? length p); [|discriminate]. intros [= <-]. cbn. split; auto. split; auto.
    intros x [<-|[]]. reflexivity.
  Qed.
  Lemma kid_size p v (c : list tree) x : In x c -> t_size x <= t_size (Node p v c) - 1.
  Proof. intros Hx. pose proof (size_children (Node p v c) x Hx). lia. Qed.

  Ltac open := match goal with
    | H : rbind ?r _ = Ok _ |- _ => let Q := fresh "Q" in destruct r eqn:Q; cbn [rbind] in H; [|discriminate|discriminate]
    end.
  Ltac fin := repeat match goal with H : Ok _ = Ok _ |- _ => injection H as H; subst end.
  (* the common setting of all five proofs *)
  Ltac start := match goal with
    | D : den ?h ?av ?x, Du : den ?h ?bv ?y |- _ =>
        rewrite (den_prefix _ _ _ D), (den_prefix _ _ _ Du);
        try rewrite (den_value _ _ _ D); try rewrite (den_value _ _ _ Du)
    end.
  Ltac kids := eapply merge_kids_ok; eauto; [intros ? ?; eapply (kid_size [] None); eauto|cbn [t_size] in *; lia].
  Ltac mats := eapply merge_mat_ok; eauto; [intros ? ?; eapply (kid_size [] None); eauto|cbn [t_size] in *; lia].

  Lemma outer_refines f F : forall k, recok (outer_with kcmp strat f k) (h_outer kcmp strat arc f F) F.
  Proof.
    induction F as [|F IH]; intros k h C av bv x y x' I S D W Du Hs H; [lia|]. destruct k as [|k]; [discriminate|].
    cbn [outer_with] in H. cbn [h_outer]. specialize (IH k). open. fin. apply unsplit_yield. start.
    destruct x as [p v c], y as [pu vu cu]. cbn [t_prefix t_value t_children] in *. set (n := common_prefix kcmp p pu) in *.
    destruct ((n =? length p) && (n =? length pu)); [|destruct (n =? length p); [|destruct (n =? length pu)]].
    - open. fin. destruct (n_set_value_ok h C av p v (upd_outer f v vu) c I D) as [I1 D1].
      kids.
    - open. open. fin. mats.
    - open. destruct (split_shape _ _ _ Q0) as (Sp & Sv & Ss). open. fin.
      eapply then_yield; [eapply h_split_ok; eauto|]. intros h1 n1 I1 D1 F1 M1. destruct x as [p1 v1 c1]. cbn [t_prefix t_value t_children] in *.
      rewrite (den_value _ _ _ D1). cbn [t_value].
      destruct (n_set_value_ok h1 C n1 p1 v1 (upd_outer f v1 vu) c1 I1 D1) as [I2 D2].
      eapply (merge_kids_ok _ _ F (t_size (Node p v c)) true true true); eauto; [eapply St_frame; eauto|eapply frame_within; eauto|eapply (frame_den _ _ C F1); eauto|lia].
    - open. destruct (split_shape _ _ _ Q0) as (Sp & Sv & Ss). open. match goal with Hm : mat_short _ _ = Ok ?z |- _ => rename z into tm end. open. fin.
      eapply then_yield; [eapply h_split_ok; eauto|]. intros h1 n1 I1 D1 F1 M1.
      assert (In1 : incl C (n1 :: C)) by (intros z Hz; now right).
      destruct (h_mat_ok arc F h1 (n1 :: C) bv (Node pu vu cu) n tm) as (h2 & tmp & -> & I2 & D2 & F2 & M2); auto.
      { eapply St_incl; [exact In1|]. eapply St_frame; eauto. }
      { eapply within_incl; [exact In1|]. eapply frame_within; eauto. }
      { eapply (frame_den _ _ C F1); eauto. }
      { pose proof (size_pos (Node p v c)). lia. }
      assert (FC : frame h1 h2 C) by (eapply frame_incl; [|exact F2]; auto).
      eapply yield1_trans; [exact FC|exact M2|]. destruct x as [p1 v1 c1]. cbn [t_prefix t_value t_children] in *.
      apply then_yield with (t := Node p1 v1 (c1 ++ [tm])).
      + eapply (with_children_in _ [tmp]); [eapply inv_perm; [apply perm_swap|exact I2]|apply (frame_pres _ _ _ F2); [now left|exact D1]|].
        intros h3 ns I3 D3 F3 M3. apply vec_push_ok; auto. apply (frame_pres _ _ _ F3); auto. now left.
      + intros h3 n3 I3 D3 F3 M3. eapply with_children_ok; eauto. intros h4 ns I4 D4 F4 M4. eapply vec_sort_ok; eauto.
  Qed.

  Lemma inner_refines f F : forall k, recok (inner_with kcmp strat f k) (h_inner kcmp strat arc f F) F.
  Proof.
    induction F as [|F IH]; intros k h C av bv x y x' I S D W Du Hs H; [lia|]. destruct k as [|k]; [discriminate|].
    cbn [inner_with] in H. cbn [h_inner]. specialize (IH k). open. fin. apply unsplit_yield. start.
    destruct x as [p v c], y as [pu vu cu]. cbn [t_prefix t_value t_children] in *. set (n := common_prefix kcmp p pu) in *.
    destruct ((n =? length p) && (n =? length pu)); [|destruct (n =? length p); [|destruct (n =? length pu)]].
    - open. fin. destruct (n_set_value_ok h C av p v (upd_inner f v vu) c I D) as [I1 D1].
      kids.
    - open. open. fin. destruct (n_set_value_ok h C av p v None c I D) as [I1 D1]. mats.
    - open. destruct (split_shape _ _ _ Q0) as (Sp & Sv & Ss). open. fin.
      eapply then_yield; [eapply h_split_ok; eauto|]. intros h1 n1 I1 D1 F1 M1. destruct x as [p1 v1 c1]. cbn [t_prefix t_value t_children] in *.
      eapply (merge_kids_ok _ _ F (t_size (Node p v c)) false false false); eauto; [eapply St_frame; eauto|eapply frame_within; eauto|eapply (frame_den _ _ C F1); eauto|lia].
    - fin. eapply clear_yield; eauto.
  Qed.

  Lemma left_refines f F : forall k, recok (left_with kcmp strat f k) (h_left kcmp strat arc f F) F.
  Proof.
    induction F as [|F IH]; intros k h C av bv x y x' I S D W Du Hs H; [lia|]. destruct k as [|k]; [discriminate|].
    cbn [left_with] in H. cbn [h_left]. specialize (IH k). open. fin. apply unsplit_yield. start.
    destruct x as [p v c], y as [pu vu cu]. cbn [t_prefix t_value t_children] in *. set (n := common_prefix kcmp p pu) in *.
    destruct ((n =? length p) && (n =? length pu)); [|destruct (n =? length p); [|destruct (n =? length pu)]].
    - open. fin. destruct (n_set_value_ok h C av p v (upd_left f v vu) c I D) as [I1 D1].
      kids.
    - open. open. fin. mats.
    - open. destruct (split_shape _ _ _ Q0) as (Sp & Sv & Ss). open. fin.
      eapply then_yield; [eapply h_split_ok; eauto|]. intros h1 n1 I1 D1 F1 M1. destruct x as [p1 v1 c1]. cbn [t_prefix t_value t_children] in *.
      eapply (merge_kids_ok _ _ F (t_size (Node p v c)) true false false); eauto; [eapply St_frame; eauto|eapply frame_within; eauto|eapply (frame_den _ _ C F1); eauto|lia].
    - fin. now apply same_yield.
  Qed.

  Lemma remove_refines f F : forall k, recok (remove_with kcmp strat f k) (h_remove kcmp strat arc f F) F.
  Proof.
    induction F as [|F IH]; intros k h C av bv x y x' I S D W Du Hs H; [lia|]. destruct k as [|k]; [discriminate|].
    cbn [remove_with] in H. cbn [h_remove]. specialize (IH k). open. fin. apply unsplit_yield. start.
    destruct x as [p v c], y as [pu vu cu]. cbn [t_prefix t_value t_children] in *. set (n := common_prefix kcmp p pu) in *.
    destruct ((n =? length p) && (n =? length pu)); [|destruct (n =? length pu); [|destruct (n =? length p)]].
    - destruct (hit f vu); [fin; eapply clear_yield; eauto|]. open. fin. kids.
    - destruct (hit f vu); [fin; eapply clear_yield; eauto|]. open. destruct (split_shape _ _ _ Q0) as (Sp & Sv & Ss). open. fin.
      eapply then_yield; [eapply h_split_ok; eauto|]. intros h1 n1 I1 D1 F1 M1. destruct x as [p1 v1 c1]. cbn [t_prefix t_value t_children] in *.
      eapply (merge_kids_ok _ _ F (t_size (Node p v c)) true false false); eauto; [eapply St_frame; eauto|eapply frame_within; eauto|eapply (frame_den _ _ C F1); eauto|lia].
    - open. open. fin. mats.
    - fin. now apply same_yield.
  Qed.

  Lemma retain_refines f F : forall k, recok (retain_with kcmp strat f k) (h_retain kcmp strat arc f F) F.
  Proof.
    induction F as [|F IH]; intros k h C av bv x y x' I S D W Du Hs H; [lia|]. destruct k as [|k]; [discriminate|].
    cbn [retain_with] in H. cbn [h_retain]. specialize (IH k). open. fin. apply unsplit_yield. start.
    destruct x as [p v c], y as [pu vu cu]. cbn [t_prefix t_value t_children] in *. set (n := common_prefix kcmp p pu) in *.
    destruct ((n =? length p) && (n =? length pu)); [|destruct (n =? length pu); [|destruct (n =? length p)]].
    - destruct (hit f vu); [fin; now apply same_yield|]. open. fin. destruct (n_set_value_ok h C av p v None c I D) as [I1 D1].
      kids.
    - destruct (hit f vu); [fin; now apply same_yield|]. open. destruct (split_shape _ _ _ Q0) as (Sp & Sv & Ss). open. fin.
      eapply then_yield; [eapply h_split_ok; eauto|]. intros h1 n1 I1 D1 F1 M1. destruct x as [p1 v1 c1]. cbn [t_prefix t_value t_children] in *.
      eapply (merge_kids_ok _ _ F (t_size (Node p v c)) false false false); eauto; [eapply St_frame; eauto|eapply frame_within; eauto|eapply (frame_den _ _ C F1); eauto|lia].
    - open. open. fin. destruct (n_set_value_ok h C av p v None c I D) as [I1 D1]. mats.
    - fin. eapply clear_yield; eauto.
  Qed.

  (** ** find *)
  Definition find_rel h C (r1 : find_result) (r2 : @h_find_result K V) : Prop :=
    match r1, r2 with
    | Found t, HFound n => den h n t /\ within h C n
    | FPrefix t rt, HPrefix n rt' => den h n t /\ within h C n /\ rt = rt'
    | NotFound _ _ _, HNotFound => True
    | _, _ => False
    end.
  Lemma find_refines F : forall k h C m u key r, within h C m -> den h m u -> t_size u <= F -> find_loop kcmp k u key = Ok r ->
    exists r', h_find kcmp F h m key = Some r' /\ find_rel h C r r'.
  Proof.
    induction F as [|F IH]; intros k h C m u key r W D Hs H; [pose proof (size_pos u); lia|]. destruct k as [|k]; [discriminate|].
    cbn [find_loop] in H. cbn [h_find]. rewrite (den_prefix _ _ _ D). set (n := common_prefix kcmp (t_prefix u) key) in *.
    destruct (_ && _); [injection H as <-; eexists; split; [reflexivity|]; simpl; auto|].
    destruct (length key - n =? 0); [injection H as <-; eexists; split; [reflexivity|]; simpl; auto|].
    destruct (length (t_prefix u) - n =? 0); [|injection H as <-; eexists; split; [reflexivity|]; simpl; auto].
    destruct (nth_error key n) as [c|]; [|discriminate]. destruct u as [pu vu cu]. destruct (kids_of_ok _ _ _ _ _ D) as (_ & _ & ns & Qk & Dn). rewrite Qk.
    cbn [t_children] in H.
    rewrite <- (bsearch_sim (fun e => match t_prefix e with x :: _ => Some (kcmp x c) | [] => None end) _ cu ns).
    - destruct (bsearch _ cu) as [i|i| |]; try discriminate.
      + pose proof (dens_nth _ _ _ i Dn) as E. destruct (nth_error cu i) as [ch|] eqn:Qc; [|discriminate].
        destruct (nth_error ns i) as [cn|] eqn:Qn; [|easy]. eapply IH; eauto.
        * eapply kids_within; eauto. eapply nth_error_In; eauto.
        * apply nth_error_In in Qc. pose proof (size_children (Node pu vu cu) ch Qc). lia.
      + injection H as <-. eexists. split; [reflexivity|]. exact Logic.I.
    - intros i. pose proof (dens_nth _ _ _ i Dn) as E. destruct (nth_error ns i), (nth_error cu i); auto. now rewrite (den_prefix _ _ _ E).
    - symmetry. eapply dens_length; eauto.
  Qed.
  Lemma get_refines F h C m u key r : within h C m -> den h m u -> t_size u <= F -> rt_get kcmp u key = Ok r ->
    h_get kcmp F h m key = Some r.
  Proof.
    unfold rt_get, t_find, h_get. intros W D Hs H. open. injection H as <-.
    destruct (find_refines F _ h C m u key _ W D Hs Q) as (r' & -> & R). destruct x, r'; simpl in R; try easy.
    f_equal. destruct R as [R _]. apply (den_value _ _ _ R).
  Qed.
  Lemma node_clone_yield h C n t : Inv h C -> within h C n -> den h n t -> yield1 h C (node_clone h n) t.
  Proof.
    intros I W D. destruct (within_present _ _ _ W) as [(ts & Q)|P].
    - exists h, n. unfold node_clone. rewrite Q. split; auto. destruct n as [p v k]. cbn in Q. subst k. split; [now apply inv_inl|]. split; auto. split; [apply frame_refl|apply mono_refl].
    - destruct (node_clone_inv h C n I P) as (h' & Q & I' & G). exists h', n. split; auto. split; auto. pose proof (grows_ext _ _ G) as X.
      split; [now apply (den_ext _ _ X)|]. split; [now apply frame_ext|]. unfold node_clone in Q. destruct (n_kids n) as [?|a]; [injection Q as ->; apply mono_refl|].
      unfold arc_clone in Q. destruct (h_cell h a) as [[rc ms]|] eqn:Ha; [|discriminate]. injection Q as <-. eapply mono_upd; eauto.
  Qed.
  Lemma mk_empty_yield h C : Inv h C -> St h C -> yield1 h C (mk_empty arc h) (Node [] None []).
  Proof.
    intros I [Si Sd]. unfold mk_empty. destruct arc.
    - assert (P : within h C static) by (right; now left). destruct (node_clone_yield h C static _ I P Sd) as (h' & n & Q & R). unfold node_clone in Q. cbn in Q.
      destruct (arc_clone h 0) as [h1|]; [|discriminate]. injection Q as <- <-. exists h1, static. split; auto.
    - exists h, (MkN [] None (inl [])). split; auto. split; [now apply inv_inl|]. split; [constructor|]. split; [apply frame_refl|apply mono_refl].
  Qed.
  Lemma filter_refines F h C m u key u' : Inv h C -> St h C -> within h C m -> den h m u -> t_size u <= F ->
    rt_filter_prefix kcmp u key = Ok u' -> yield1 h C (h_filter_prefix kcmp arc F h m key) u'.
  Proof.
    unfold rt_filter_prefix, t_find, h_filter_prefix. intros I S W D Hs H. open.
    destruct (find_refines F _ h C m u key _ W D Hs Q) as (r' & -> & R). destruct x as [t|t rt|t rt rp], r' as [n|n rt'|]; simpl in R; try easy.
    - destruct R as [Dn Wn]. destruct (node_clone_yield h C n t I Wn Dn) as (h1 & n1 & -> & I1 & D1 & F1 & M1). destruct t as [p v c]. injection H as <-.
      destruct (n_set_prefix_ok h1 C n1 p key v c I1 D1) as [I2 D2]. exists h1, (n_set_prefix key n1). auto.
    - destruct R as (Dn & Wn & <-). destruct (node_clone_yield h C n t I Wn Dn) as (h1 & n1 & -> & I1 & D1 & F1 & M1). destruct t as [p v c].
      rewrite (den_prefix _ _ _ Dn), (den_prefix _ _ _ D1). cbn [t_prefix] in *. destruct (rt <=? length p); [|discriminate]. injection H as <-.
      destruct (n_set_prefix_ok h1 C n1 p (skipn (length p - rt) p) v c I1 D1) as [I2 D2].
      destruct (h_prepend_ok h1 C _ _ key I2 D2) as (n2 & -> & I3 & D3). exists h1, n2. auto.
    - injection H as <-. now apply mk_empty_yield.
  Qed.
End HeapOpsRefine.

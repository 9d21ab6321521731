(** Every operation of HeapOps.v does on shared nodes what its counterpart of RadixModel.v does on
    plain trees. *)
From Coq Require Import Permutation.
From Verif Require Export HeapFrame.

Lemma mat_short_eq {K V} (t : rtree K V) n : mat_short t n =
  if n <? length (t_prefix t) then rbind (mat_all (t_children t)) (fun c => Ok (Node (skipn n (t_prefix t)) (t_value t) c)) else Panicked.
Proof.
  destruct t as [p v c]. cbn [mat_short t_prefix t_value t_children]. destruct (n <? length p); reflexivity.
Qed.
Lemma mat_short_size {K V} (t : rtree K V) : forall n t', mat_short t n = Ok t' -> t_size t' = t_size t.
Proof.
  induction t as [p v c IH] using rtree_ind'. intros n t'. rewrite mat_short_eq. cbn [t_prefix t_value t_children].
  destruct (n <? length p); [|discriminate].
  assert (G : forall l, mat_all c = Ok l -> list_sum (map t_size l) = list_sum (map t_size c)).
  { induction IH as [|x c Hx _ IHc]; intros l; cbn [mat_all]; [now intros [= <-]|].
    destruct (mat_short x 0) as [x'| |] eqn:Q; try discriminate. cbn [rbind]. destruct (mat_all c) as [l'| |] eqn:Q2; try discriminate.
    cbn [rbind]. intros [= <-]. cbn [map list_sum fold_right]. rewrite (Hx _ _ Q). specialize (IHc l' eq_refl). unfold list_sum in IHc. now rewrite IHc. }
  destruct (mat_all c) as [l| |] eqn:Q; try discriminate. cbn [rbind]. intros [= <-]. cbn [t_size]. now rewrite (G l).
Qed.

Section HeapOpsFacts.
  Context {K V : Type} (kcmp : K -> K -> comparison) (strat : nat -> nat -> bool) (arc : bool).
  Notation tree := (rtree K V).
  Notation node := (node K V).
  Notation heap := (heap K V).
  Implicit Types (h : heap) (ns C : list node) (ts : list tree).

  (** the static empty vector is there *)
  Definition St h C : Prop := In static C /\ den h (@static K V) (Node [] None []).
  Lemma St_frame h h' C : frame h h' C -> St h C -> St h' C.
  Proof. intros F [I D]. split; auto. now apply (frame_pres _ _ _ F). Qed.
  Lemma St_incl h C D : incl C D -> St h C -> St h D.
  Proof. intros I [S T]. split; auto. Qed.

  Lemma incl_r {X} (l m : list X) : incl m (l ++ m).
  Proof. intros x Hx. apply in_or_app. now right. Qed.
  Lemma incl_l {X} (l m : list X) : incl l (l ++ m).
  Proof. intros x Hx. apply in_or_app. now left. Qed.
  Lemma inv_mid h n ns C : Inv h (n :: ns ++ C) <-> Inv h (ns ++ n :: C).
  Proof. split; apply inv_perm; [|symmetry]; apply Permutation_middle. Qed.
  Lemma yield1_trans h h1 C r t : frame h h1 C -> mono h h1 -> yield1 h1 C r t -> yield1 h C r t.
  Proof. intros F M (h' & n & Q & I & D & F' & M'). exists h', n. split; auto. split; auto. split; auto. split; [eapply frame_trans; eauto|eapply mono_trans; eauto]. Qed.
  Lemma yield1_incl h C D r t : incl D C -> forall E, (forall h' n, Inv h' (n :: C) -> Inv h' (n :: E)) -> yield1 h C r t ->
    exists h' n, r = Some (h', n) /\ Inv h' (n :: E) /\ den h' n t /\ frame h h' D /\ mono h h'.
  Proof. intros I E H (h' & n & Q & I' & Dn & F & M). exists h', n. split; auto. split; auto. split; auto. split; auto. eapply frame_incl; eauto. Qed.

  Lemma mono_wrap h ns h' a : wrap arc h ns = Some (h', a) -> mono h h'.
  Proof.
    unfold wrap. destruct arc; [destruct ns as [|n ns]|].
    - unfold arc_clone. destruct (h_cell h 0) as [[rc ms]|] eqn:Q; [|discriminate]. intros [= <- <-]. eapply mono_upd; eauto.
    - intros E. destruct (arc_new h (n :: ns)) as [h2 a2] eqn:Q. injection E as <- <-. eapply mono_new; eauto.
    - intros E. destruct (arc_new h ns) as [h2 a2] eqn:Q. injection E as <- <-. eapply mono_new; eauto.
  Qed.
  Lemma n_new_ok p v ns ts h C : Inv h (ns ++ C) -> St h C -> dens h ns ts ->
    exists h' n, n_new arc p v ns h = Some (h', n) /\ Inv h' (n :: C) /\ den h' n (Node p v ts) /\ extends h h' /\ mono h h'.
  Proof.
    intros I [Si Sd] D. apply in_split in Si as (l1 & l2 & ->).
    assert (P : Permutation (l1 ++ static :: l2) (static :: l1 ++ l2)) by (symmetry; apply Permutation_middle).
    destruct (wrap_inv arc h ns (l1 ++ l2) p v ts) as (h1 & a & Q & I1 & X & D1); auto.
    { eapply inv_perm; [|exact I]. now apply Permutation_app_head. }
    exists h1, (MkN p v (inr a)). unfold n_new. rewrite Q. split; auto. split; [eapply inv_perm; [|exact I1]; apply perm_skip; now symmetry|].
    split; auto. split; auto. eapply mono_wrap; eauto.
  Qed.

  Lemma vec_push_ok h C c tc ns ts : Inv h (ns ++ c :: C) -> dens h ns ts -> den h c tc -> yields h C (vec_push c h ns) (ts ++ [tc]).
  Proof.
    intros I D Dc. exists h, (ns ++ [c]). split; auto. split; [now rewrite <- app_assoc|]. split; [apply dens_join; auto; constructor; auto; constructor|].
    split; [apply frame_refl|apply mono_refl].
  Qed.
  Lemma vec_clear_ok h C ns : Inv h (ns ++ C) -> yields h C (vec_clear h ns) [].
  Proof.
    intros I. destruct (drop_frame h ns C I) as (h' & Q & I' & F & M). exists h', []. unfold vec_clear. rewrite Q. split; auto. split; auto. split; auto. constructor.
  Qed.
  Lemma vec_retain_ok ns : forall h C ts, Inv h (ns ++ C) -> dens h ns ts ->
    yields h C (vec_retain h ns) (filter (fun x => negb (t_is_empty x)) ts).
  Proof.
    induction ns as [|x ns IH]; intros h C ts I D; inversion D; subst; cbn [vec_retain filter].
    - exists h, []. split; auto. split; auto. split; [constructor|]. split; [apply frame_refl|apply mono_refl].
    - rewrite (n_is_empty_ok h x t) by auto. destruct (t_is_empty t); cbn [negb].
      + destruct (drop_frame h [x] (ns ++ C) I) as (h1 & -> & I1 & F1 & M1).
        destruct (IH h1 C ts0 I1) as (h2 & l & -> & I2 & D2 & F2 & M2).
        { eapply frame_dens_own; [exact F1|apply incl_l|auto]. }
        exists h2, l. split; auto. split; auto. split; auto. split; [|eapply mono_trans; eauto].
        eapply frame_trans; [|exact F2]. eapply frame_incl; [apply incl_r|exact F1].
      + cbn [app] in I. rewrite inv_mid in I. destruct (IH h (x :: C) ts0 I) as (h2 & l & -> & I2 & D2 & F2 & M2); auto.
        exists h2, (x :: l). split; auto. split; [cbn [app]; now rewrite inv_mid|]. split.
        { constructor; auto. apply (frame_pres _ _ _ F2); auto. now left. }
        split; auto. eapply frame_incl; [|exact F2]. intros y Hy. now right.
  Qed.
  Lemma sort_insert_sim h (c1 : tree -> tree -> comparison) (c2 : node -> node -> comparison) x n ns ts :
    (forall a b m k, den h m a -> den h k b -> c1 a b = c2 m k) -> den h n x -> dens h ns ts ->
    dens h (sort_insert c2 n ns) (sort_insert c1 x ts).
  Proof.
    intros E D. revert ns. induction ts as [|y ts IH]; intros ns Ds; inversion Ds; subst; cbn [sort_insert].
    - constructor; auto.
    - rewrite <- (E x y n n0) by auto. destruct (c1 x y); constructor; auto.
  Qed.
  Lemma sort_sim h (c1 : tree -> tree -> comparison) (c2 : node -> node -> comparison) ts :
    (forall a b m k, den h m a -> den h k b -> c1 a b = c2 m k) -> forall ns, dens h ns ts -> dens h (sort_by c2 ns) (sort_by c1 ts).
  Proof.
    intros E. induction ts as [|y ts IH]; intros ns D; inversion D; subst; cbn [sort_by fold_right]; [constructor|].
    apply sort_insert_sim; auto. now apply IH.
  Qed.
  Lemma head_cmp_sim h a b m k : den h m a -> den h k b -> head_cmp kcmp a b = n_head_cmp kcmp m k.
  Proof. intros D E. unfold head_cmp, n_head_cmp. now rewrite (den_prefix _ _ _ D), (den_prefix _ _ _ E). Qed.
  Lemma vec_sort_ok h C ns ts ts' : Inv h (ns ++ C) -> dens h ns ts -> sort_heads kcmp ts = Ok ts' -> yields h C (vec_sort kcmp h ns) ts'.
  Proof.
    intros I D. unfold sort_heads, vec_sort. rewrite <- (dens_length _ _ _ D).
    assert (Hf : forallb has_head ts = forallb n_has_head ns).
    { clear I. revert ns D. induction ts as [|t ts IH]; intros ns D; inversion D; subst; auto. cbn [forallb]. rewrite (IH ns0) by auto. f_equal.
      unfold has_head, n_has_head. now rewrite (den_prefix h n t). }
    rewrite Hf. destruct (_ || _); [|discriminate]. intros [= <-]. exists h, (sort_by (n_head_ord kcmp) ns). split; auto.
    split; [eapply inv_perm; [|exact I]; apply Permutation_app_tail; symmetry; apply sort_by_perm|].
    split; [|split; [apply frame_refl|apply mono_refl]]. apply sort_sim; auto.
    intros a b m k Da Db. unfold head_ord, n_head_ord. now rewrite (head_cmp_sim h a b m k).
  Qed.

  Lemma h_split_ok h C n t k t' : Inv h (n :: C) -> St h C -> den h n t -> t_split t k = Ok t' -> yield1 h C (h_split arc h n k) t'.
  Proof.
    intros I S D. destruct t as [p v c]. unfold t_split, h_split. rewrite (den_prefix _ _ _ D). cbn [t_prefix].
    destruct (k <? length p); [|discriminate]. intros [= <-].
    destruct (n_new_ok (firstn k p) None [] [] h (n :: C)) as (h1 & s & Q & I1 & D1 & X1 & M1); auto; [eapply St_incl; [|exact S]; intros y Hy; now right|constructor|].
    rewrite Q. pose proof (proj1 (den_ext _ _ X1) _ _ D) as D'.
    destruct (n_set_prefix_ok h1 (s :: C) n p (skipn k p) v c) as [I2 D2]; auto.
    { eapply inv_perm; [apply perm_swap|exact I1]. }
    eapply yield1_trans; [apply frame_ext; exact X1|exact M1|].
    change [Node (skipn k p) v c] with ([] ++ [Node (skipn k p) v c]).
    eapply (with_children_in _ [n_set_prefix (skipn k p) n]); [|exact D1|].
    { eapply inv_perm; [apply perm_swap|exact I2]. }
    intros h2 ns I3 D3 F3 M3. apply vec_push_ok; auto. apply (frame_pres _ _ _ F3); auto. now left.
  Qed.
  Lemma h_prepend_ok h C n t q : Inv h (n :: C) -> den h n t ->
    exists n', h_prepend h n q = Some n' /\ Inv h (n' :: C) /\ den h n' (rt_prepend t q).
  Proof.
    intros I D. unfold h_prepend, rt_prepend. destruct t as [p v c]. destruct q as [|x q]; [eauto|].
    rewrite (n_is_empty_ok _ _ _ D). destruct (t_is_empty _); [eauto|]. eexists. split; [reflexivity|]. rewrite (den_prefix _ _ _ D). eapply n_set_prefix_ok; eauto.
  Qed.
  Lemma h_collapse_ok h C n p v tc : Inv h (n :: C) -> den h n (Node p v [tc]) -> yield1 h C (h_collapse h n) (rt_prepend tc p).
  Proof.
    intros I D. unfold h_collapse. destruct (children_mut_frame h C n p v _ I D) as (h1 & a & ns & -> & I1 & Ha & Dn & F1 & M1). rewrite Ha.
    inversion Dn as [|c ? ns0 ? Dc D0]; subst. inversion D0; subst. cbn [rev app n_prefix].
    destruct (write_own h1 p v a [c] C [] (c :: C) I1 Ha) as (I2 & P2); [reflexivity|].
    pose proof (frame_borrow _ _ _ _ _ _ (Some (1, @nil node)) I1 Ha) as F2. set (h2 := h_upd h1 a (Some (1, []))) in *.
    assert (Dc2 : den h2 c tc) by (apply (frame_pres _ _ _ F2); auto; now left).
    destruct (h_prepend_ok h2 (MkN p v (inr a) :: C) c tc p) as (c' & -> & I3 & D3); auto.
    { eapply inv_perm; [apply perm_swap|exact I2]. }
    destruct (drop_frame h2 [MkN p v (inr a)] (c' :: C)) as (h3 & -> & I4 & F4 & M4).
    { eapply inv_perm; [apply perm_swap|exact I3]. }
    exists h3, c'. split; auto. split; auto. split; [apply (frame_pres _ _ _ F4); auto; now left|]. split.
    - eapply frame_trans; [exact F1|]. eapply frame_trans; [eapply frame_incl; [|exact F2]; apply incl_r|]. eapply frame_incl; [|exact F4]. intros y Hy. now right.
    - eapply mono_trans; [exact M1|]. eapply mono_trans; [eapply mono_upd; eauto|exact M4].
  Qed.
  Lemma h_unsplit_ok h C n t : Inv h (n :: C) -> den h n t -> yield1 h C (h_unsplit h n) (t_unsplit t).
  Proof.
    intros I D. destruct t as [p v c]. unfold h_unsplit, t_unsplit. set (c' := filter _ c).
    destruct (with_children_ok vec_retain h C n p v c c' I D) as (h1 & n1 & -> & I1 & D1 & F1 & M1).
    { intros h1 ns I1 D1 _ _. now apply vec_retain_ok. }
    destruct (kids_of_ok _ _ _ _ _ D1) as (_ & -> & ns & -> & Dn).
    set (t1 := match v, c' with None, [child] => rt_prepend child p | _, _ => Node p v c' end).
    assert (Y : yield1 h C (match v, ns with None, [_] => h_collapse h1 n1 | _, _ => Some (h1, n1) end) t1).
    { assert (Same : yield1 h C (Some (h1, n1)) (Node p v c')) by (exists h1, n1; auto).
      unfold t1. destruct v as [v|]; [exact Same|]. inversion Dn as [E1 E2|x tx ns1 ts1 Dx Dr E1 E2]; [rewrite <- E2 in Same; exact Same|].
      rewrite <- E2 in Same, D1. inversion Dr; subst; [|exact Same]. eapply yield1_trans; [exact F1|exact M1|]. eapply h_collapse_ok; eauto. }
    destruct Y as (h2 & n2 & -> & I2 & D2 & F2 & M2). rewrite (n_is_empty_ok _ _ _ D2). destruct t1 as [p1 v1 c1].
    destruct (t_is_empty _).
    - destruct (n_set_prefix_ok h2 C n2 p1 [] v1 c1) as [I3 D3]; auto. exists h2, (n_set_prefix [] n2). auto.
    - exists h2, n2. auto.
  Qed.

  (** ** Deep copies *)
  Lemma h_mat_ok fuel : forall h C m u k u', Inv h C -> St h C -> within h C m -> den h m u -> t_size u <= fuel -> mat_short u k = Ok u' ->
    yield1 h C (h_mat arc fuel h m k) u'.
  Proof.
    induction fuel as [|fuel IH]; intros h C m u k u' I S W D Hs H; [pose proof (size_pos u); lia|].
    cbn [h_mat]. destruct u as [p v c]. rewrite mat_short_eq in H. cbn [t_prefix t_value t_children] in H.
    destruct (kids_of_ok _ _ _ _ _ D) as (Qp & Qv & ns & Qk & Dn). rewrite Qp, Qv, Qk.
    destruct (k <? length p); [|discriminate]. destruct (mat_all c) as [c'| |] eqn:Qc; try discriminate. injection H as <-.
    match goal with |- context [match ?g h ns with _ => _ end] => set (go := g) end.
    assert (G : forall ns c c', mat_all c = Ok c' -> (forall x, In x c -> t_size x <= fuel) -> forall h C, Inv h C -> St h C ->
      (forall m, In m ns -> within h C m) -> dens h ns c -> yields h C (go h ns) c').
    { clear -IH. induction ns as [|x ns IHl]; intros c c' Q Hc h C I S W D; inversion D; subst; cbn [mat_all] in Q.
      - injection Q as <-. exists h, []. split; auto. split; auto. split; [constructor|]. split; [apply frame_refl|apply mono_refl].
      - destruct (mat_short t 0) as [x'| |] eqn:Q1; try discriminate. cbn [rbind] in Q. destruct (mat_all ts) as [l'| |] eqn:Q2; try discriminate.
        injection Q as <-. unfold go; cbn; fold go.
        destruct (IH h C x t 0 x') as (h1 & n1 & -> & I1 & D1 & F1 & M1); auto; [apply W; now left|apply Hc; now left|].
        destruct (IHl ts l' Q2 ltac:(intros; apply Hc; now right) h1 (n1 :: C) I1) as (h2 & l2 & -> & I2 & D2 & F2 & M2).
        + eapply St_incl; [|eapply St_frame; eauto]. intros y Hy. now right.
        + intros y Hy. eapply within_incl; [|eapply frame_within; eauto; apply W; now right]. intros z Hz. now right.
        + eapply (frame_den _ _ C F1); auto. intros y Hy. apply W. now right.
        + exists h2, (n1 :: l2). split; auto. split; [cbn [app]; now rewrite inv_mid|]. split.
          { constructor; auto. apply (frame_pres _ _ _ F2); auto. now left. }
          split; [|eapply mono_trans; eauto]. eapply frame_trans; [exact F1|]. eapply frame_incl; [|exact F2]. intros y Hy. now right. }
    destruct (G ns c c' Qc) with (h := h) (C := C) as (h1 & l & -> & I1 & D1 & F1 & M1); auto.
    { intros x Hx. pose proof (size_children (Node p v c) x Hx). lia. }
    { eapply kids_within; eauto. }
    destruct (n_new_ok (skipn k p) v l c' h1 C I1) as (h2 & n2 & -> & I2 & D2 & X2 & M2); auto; [eapply St_frame; eauto|].
    exists h2, n2. split; auto. split; auto. split; auto. split; [|eapply mono_trans; eauto]. eapply frame_trans; [exact F1|now apply frame_ext].
  Qed.

  (** ** In-place merges *)
  Section InPlaceOk.
    Context (rec1 : tree -> tree -> res tree) (rec2 : heap -> node -> node -> option (heap * node)) (fuel na nb : nat) (conv : bool).
    Definition conv1 : tree -> option tree := if conv then mat_conv else NoConverter.
    Hypothesis Hrec : forall h C av bv x y x', Inv h (av :: C) -> St h C -> den h av x -> within h C bv -> den h bv y ->
      t_size x <= na -> t_size y <= nb -> rec1 x y = Ok x' -> yield1 h C (rec2 h av bv) x'.
    Hypothesis Hfuel : nb <= fuel.
    Context (h0 : heap) (C : list node).
    Hypothesis S0 : St h0 C.

    Definition mrel (s1 : iprstate tree tree) (s2 : @hst K V) : Prop :=
      Inv (hs_h s2) (hs_tgt s2 ++ hs_src s2 ++ C) /\ dens (hs_h s2) (hs_tgt s2) (bd_tgt (ipr_a s1)) /\
      dens (hs_h s2) (hs_src s2) (bd_src (ipr_a s1)) /\ dens (hs_h s2) (hs_b s2) (ipr_b s1) /\
      (forall m, In m (hs_b s2) -> within (hs_h s2) C m) /\ frame h0 (hs_h s2) C /\ mono h0 (hs_h s2) /\
      (forall x, In x (bd_src (ipr_a s1)) -> t_size x <= na) /\ (forall x, In x (ipr_b s1) -> t_size x <= nb).

    Lemma In_skipn {X} n (l : list X) x : In x (skipn n l) -> In x l.
    Proof. intros H. rewrite <- (firstn_skipn n l). apply in_or_app. now right. Qed.
    Lemma mrel_adv_a s1 s2 n take : mrel s1 s2 -> osim mrel (adv_a (ipr_msm conv1) s1 n take) (hs_adv_a s2 n take).
    Proof.
      intros (I & Dt & Ds & Db & W & F & M & Za & Zb). destruct s1 as [[t a d] b], s2 as [h tgt src bs].
      cbn [hs_h hs_tgt hs_src hs_b ipr_a ipr_b bd_tgt bd_src] in *. cbn [ipr_msm adv_a]. unfold ipr_adv_a, hs_adv_a, bd_consume. cbn [hs_h hs_tgt hs_src hs_b ipr_a ipr_b bd_tgt bd_src bd_drop].
      destruct take; cbn [osim].
      - eexists. split; [reflexivity|]. unfold mrel. cbn [hs_h hs_tgt hs_src hs_b ipr_a ipr_b bd_tgt bd_src].
        split; [rewrite <- app_assoc, (app_assoc (firstn n src)), firstn_skipn; auto|].
        split; [apply dens_join; auto; now apply dens_firstn|]. split; [now apply dens_skipn|]. split; auto. split; auto. split; auto. split; auto. split; auto.
        intros x Hx. apply Za. eapply In_skipn; eauto.
      - destruct (drop_frame h (firstn n src) (tgt ++ skipn n src ++ C)) as (h1 & -> & I1 & F1 & M1).
        { eapply inv_perm; [|exact I]. rewrite <- (firstn_skipn n src) at 1. rewrite <- app_assoc, !app_assoc. do 2 apply Permutation_app_tail. apply Permutation_app_comm. }
        eexists. split; [reflexivity|]. unfold mrel. cbn [hs_h hs_tgt hs_src hs_b ipr_a ipr_b bd_tgt bd_src]. assert (FC : frame h h1 C) by (eapply frame_incl; [|exact F1]; rewrite app_assoc; apply incl_r).
        split; auto. split; [eapply frame_dens_own; [exact F1| |auto]; apply incl_l|].
        split; [eapply frame_dens_own; [exact F1| |now apply dens_skipn]; rewrite app_assoc; intros y Hy; apply in_or_app; left; apply in_or_app; now right|].
        split; [now apply (frame_den _ _ C FC)|]. split; [intros m Hm; eapply frame_within; eauto|]. split; [eapply frame_trans; eauto|]. split; [eapply mono_trans; eauto|].
        split; auto. intros x Hx. apply Za. eapply In_skipn; eauto.
    Qed.
    Lemma mrel_extend n : forall s1 s2, mrel s1 s2 -> forall bd b,
      bd_extend conv1 n (ipr_a s1) (ipr_b s1) = (bd, b, true) -> exists s2', hs_extend arc fuel conv n s2 = Cont s2' /\ mrel (MkIpr bd b) s2'.
    Proof.
      induction n as [|n IH]; intros s1 s2 R bd b H.
      - cbn [bd_extend hs_extend] in *. injection H as <- <-. exists s2. split; [reflexivity|]. now destruct s1.
      - pose proof R as (I & Dt & Ds & Db & W & F & M & Za & Zb). destruct s1 as [[t a d] bs1], s2 as [h tgt src bs].
        cbn [hs_h hs_tgt hs_src hs_b ipr_a ipr_b bd_tgt bd_src] in *. cbn [bd_extend hs_extend hs_h hs_tgt hs_src hs_b] in *.
        destruct bs1 as [|y1 bs1]; inversion Db as [|y2 ? bs2 ? Dy Dbs]; subst.
        + injection H as <- <-. eexists. split; [reflexivity|]. exact R.
        + unfold conv1 in H at 1. destruct conv eqn:Ec; [|discriminate]. destruct (mat_conv y1) as [y1'|] eqn:Qy; [|discriminate].
          unfold mat_conv in Qy. destruct (mat_short y1 0) as [y1''| |] eqn:Qm; try discriminate. injection Qy as ->.
          destruct (h_mat_ok fuel h (tgt ++ src ++ C) y2 y1 0 y1') as (h1 & x & -> & I1 & D1 & F1 & M1); auto.
          { eapply St_incl; [|eapply St_frame; eauto]. rewrite app_assoc. apply incl_r. }
          { eapply within_incl; [|apply W; now left]. rewrite app_assoc. apply incl_r. }
          { specialize (Zb y1 ltac:(now left)). lia. }
          assert (FC : frame h h1 C) by (eapply frame_incl; [|exact F1]; rewrite app_assoc; apply incl_r).
          eapply (IH (MkIpr (bd_push (MkB t a d) y1') bs1)); [|cbn [ipr_a ipr_b]; exact H].
          unfold mrel. cbn [hs_h hs_tgt hs_src hs_b ipr_a ipr_b bd_tgt bd_src bd_push].
          split; [rewrite <- app_assoc; cbn [app]; now rewrite <- inv_mid|]. split; [apply dens_join; [|constructor; auto; constructor]; eapply frame_dens_own; [exact F1|apply incl_l|auto]|].
          split; [eapply frame_dens_own; [exact F1| |auto]; rewrite app_assoc; intros z Hz; apply in_or_app; left; apply in_or_app; now right|].
          split; [apply (frame_den _ _ C FC); auto; intros z Hz; apply W; now right|]. split; [intros m Hm; eapply frame_within; eauto; apply W; now right|].
          split; [eapply frame_trans; eauto|]. split; [eapply mono_trans; eauto|]. split; auto. intros z Hz. apply Zb. now right.
    Qed.
    Lemma mrel_adv_b s1 s2 n take : mrel s1 s2 -> osim mrel (adv_b (ipr_msm conv1) s1 n take) (hs_adv_b arc fuel conv s2 n take).
    Proof.
      intros R. cbn [ipr_msm adv_b]. unfold ipr_adv_b, hs_adv_b. destruct take.
      - destruct (bd_extend conv1 n (ipr_a s1) (ipr_b s1)) as [[bd b] ok] eqn:Q. destruct ok; [|exact Logic.I]. cbn [osim]. eapply mrel_extend; eauto.
      - cbn [osim]. eexists. split; [reflexivity|]. destruct R as (I & Dt & Ds & Db & W & F & M & Za & Zb). unfold mrel. cbn [hs_h hs_tgt hs_src hs_b ipr_a ipr_b bd_tgt bd_src].
        split; auto. split; auto. split; auto. split; [now apply dens_skipn|]. split; [intros m Hm; apply W; eapply In_skipn; eauto|]. split; auto. split; auto. split; auto.
        intros x Hx. apply Zb. eapply In_skipn; eauto.
    Qed.
    Lemma mrel_coll s1 s2 : mrel s1 s2 -> osim mrel (coll_with rec1 conv1 s1) (h_coll arc rec2 fuel conv s2).
    Proof.
      intros R. pose proof R as (I & Dt & Ds & Db & W & F & M & Za & Zb). destruct s1 as [[t a d] b], s2 as [h tgt src bs].
      cbn [hs_h hs_tgt hs_src hs_b ipr_a ipr_b bd_tgt bd_src bd_drop] in *. unfold coll_with, h_coll. cbn [hs_h hs_tgt hs_src hs_b ipr_a ipr_b bd_tgt bd_src bd_drop].
      destruct a as [|x a]; [exact Logic.I|]. destruct b as [|y b]; [exact Logic.I|]. inversion Ds as [|av ? a' ? Dav Da']; subst. inversion Db as [|bv ? b' ? Dbv Db']; subst.
      destruct (rec1 x y) as [x'| |] eqn:Qr; try exact Logic.I.
      destruct (Hrec h (tgt ++ a' ++ C) av bv x y x') as (h1 & av' & -> & I1 & D1 & F1 & M1); auto.
      { eapply inv_perm; [|exact I]. symmetry. apply (Permutation_middle tgt (a' ++ C)). }
      { eapply St_incl; [|eapply St_frame; eauto]. rewrite app_assoc. apply incl_r. }
      { eapply within_incl; [|apply W; now left]. rewrite app_assoc. apply incl_r. }
      { apply Za. now left. }
      { apply Zb. now left. }
      rewrite (n_is_empty_ok _ _ _ D1).
      assert (FC : frame h h1 C) by (eapply frame_incl; [|exact F1]; rewrite app_assoc; apply incl_r).
      assert (Step : forall take, osim mrel
         (obind (adv_a (ipr_msm conv1) (MkIpr (MkB t (x' :: a) d) (y :: b)) 1 take) (fun m'' => adv_b (ipr_msm conv1) m'' 1 false))
         (obind (hs_adv_a (MkHst h1 tgt (av' :: a') (bv :: b')) 1 take) (fun s' => hs_adv_b arc fuel conv s' 1 false))).
      2: apply Step.
      intros take.
      (* the new first element may be larger than na; it is consumed at once *)
      cbn [ipr_msm adv_a]. unfold ipr_adv_a, hs_adv_a, bd_consume. cbn [hs_h hs_tgt hs_src hs_b ipr_a ipr_b bd_tgt bd_src bd_drop firstn skipn].
      assert (R' : forall tgt' t' h2, Inv h2 (tgt' ++ a' ++ C) -> dens h2 tgt' t' -> frame h1 h2 (tgt ++ a' ++ C) -> mono h1 h2 -> forall d',
         mrel (MkIpr (MkB t' a d') (y :: b)) (MkHst h2 tgt' a' (bv :: b'))).
      { intros tgt' t' h2 I2 D2 F2 M2 d'. assert (FC2 : frame h h2 C) by (eapply frame_trans; [exact FC|]; eapply frame_incl; [|exact F2]; rewrite app_assoc; apply incl_r).
        unfold mrel. cbn [hs_h hs_tgt hs_src hs_b ipr_a ipr_b bd_tgt bd_src]. split; auto. split; auto.
        split; [eapply frame_dens_own; [exact F2| |eapply frame_dens_own; [exact F1| |exact Da']]; rewrite app_assoc; intros z Hz; apply in_or_app; left; apply in_or_app; now right|].
        split; [apply (frame_den _ _ C FC2); auto|]. split; [intros m Hm; eapply frame_within; eauto|]. split; [eapply frame_trans; eauto|].
        split; [eapply mono_trans; [exact M|]; eapply mono_trans; eauto|]. split; auto. intros z Hz. apply Za. now right. }
      assert (Dt1 : dens h1 tgt t) by (eapply frame_dens_own; [exact F1|apply incl_l|auto]).
      destruct take; cbn [obind].
      - eapply mrel_adv_b. apply R'; auto; [|apply dens_join; auto; constructor; auto; constructor|apply frame_refl|apply mono_refl].
        rewrite <- app_assoc. eapply inv_perm; [|exact I1]. cbn [app]. apply Permutation_middle.
      - destruct (drop_frame h1 [av'] (tgt ++ a' ++ C) I1) as (h2 & -> & I2 & F2 & M2). cbn [obind].
        eapply mrel_adv_b. apply R'; auto. eapply frame_dens_own; [exact F2|apply incl_l|auto].
    Qed.
    Lemma mrel_msim ta tb : msim (op_with kcmp rec1 ta tb conv1) (h_op kcmp arc rec2 fuel ta tb conv) mrel.
    Proof.
      constructor; intros; unfold op_with, h_op in *; cbn [mo_a mo_b mo_cmp mo_from_a mo_from_b mo_coll] in *.
      - destruct H as (_ & _ & Ds & _). symmetry. eapply dens_length; eauto.
      - destruct H as (_ & _ & _ & Db & _). symmetry. eapply dens_length; eauto.
      - destruct H as (_ & _ & Ds & Db & _). pose proof (dens_nth _ _ _ i Ds) as E1. pose proof (dens_nth _ _ _ j Db) as E2.
        rewrite H0, H1 in E1. rewrite H2, H3 in E2. now apply (head_cmp_sim (hs_h s2)).
      - now apply mrel_adv_a.
      - now apply mrel_adv_b.
      - now apply mrel_coll.
    Qed.
    Lemma children_with_ok ta tb ns bs a b l : Inv h0 (ns ++ C) -> dens h0 ns a -> dens h0 bs b -> (forall m, In m bs -> within h0 C m) ->
      (forall x, In x a -> t_size x <= na) -> (forall x, In x b -> t_size x <= nb) ->
      children_with kcmp strat rec1 ta tb conv1 a b = Ok l ->
      yields h0 C (h_merge kcmp strat arc rec2 fuel ta tb conv bs h0 ns) l.
    Proof.
      intros I Da Db W Za Zb H. unfold children_with, ipr_merge in H.
      assert (R0 : mrel (ipr_new a b) (MkHst h0 [] ns bs)).
      { unfold mrel. cbn. split; auto. split; [constructor|]. split; auto. split; auto. split; auto. split; [apply frame_refl|]. split; [apply mono_refl|]. auto. }
      pose proof (merge_sim _ _ _ (mrel_msim ta tb) strat _ _ R0) as Sim. unfold h_merge.
      assert (Fin : forall s1 s2, mrel s1 s2 -> bd_tgt (ipr_a s1) = l ->
        yields h0 C (match drop_all (hs_h s2) (hs_src s2) with Some h' => Some (h', hs_tgt s2) | None => None end) l).
      { intros s1 s2 (I2 & Dt & Ds & _ & _ & F & M & _) <-. destruct (drop_frame (hs_h s2) (hs_src s2) (hs_tgt s2 ++ C)) as (h3 & -> & I3 & F3 & M3).
        { eapply inv_perm; [|exact I2]. rewrite !app_assoc. apply Permutation_app_tail, Permutation_app_comm. }
        exists h3, (hs_tgt s2). split; auto. split; auto. split; [eapply frame_dens_own; [exact F3|apply incl_l|auto]|].
        split; [|eapply mono_trans; eauto]. eapply frame_trans; [exact F|]. eapply frame_incl; [|exact F3]. apply incl_r. }
      destruct (merge (op_with kcmp rec1 ta tb conv1) strat (ipr_new a b)) as [s1|s1|s1|] eqn:Q; cbn [to_done] in H; try discriminate; injection H as H;
        cbn [osim] in Sim; destruct Sim as (s2 & -> & R2); eapply Fin; eauto.
    Qed.
    (** with the children of a borrowed node *)
  End InPlaceOk.
End HeapOpsFacts.

(** What an operation on an owned node leaves alone: every vector that other owners can reach keeps
    its contents. And: two runs of the same merge on related states stay related. *)
From Coq Require Import Permutation.
From Verif Require Export HeapRefine HeapOps.

Section Frame.
  Context {K V : Type}.
  Notation tree := (rtree K V).
  Notation node := (node K V).
  Notation heap := (heap K V).
  Implicit Types (h : heap) (ns C : list node) (ts : list tree).

  Definition creach h C (a : nat) : Prop := exists n, In n C /\ reach h n a.
  (** a node that the owners in [C] keep alive: in the archive, owned, or in a vector they reach *)
  Definition within h C (m : node) : Prop :=
    (exists ts, n_kids m = inl ts) \/ In m C \/ exists a rc ns, creach h C a /\ h_cell h a = Some (rc, ns) /\ In m ns.
  Definition frame h h' C : Prop :=
    forall a rc ns, creach h C a -> h_cell h a = Some (rc, ns) -> exists rc', h_cell h' a = Some (rc', ns).

  Lemma reach_trans h n a rc ns m b : reach h n a -> h_cell h a = Some (rc, ns) -> In m ns -> reach h m b -> reach h n b.
  Proof. intros R. revert rc ns. induction R; intros; [eapply reach_below; eauto|eapply reach_below; eauto]. Qed.
  Lemma within_reach h C m b : within h C m -> reach h m b -> creach h C b.
  Proof.
    intros [(ts & Q)|[Hi|(a & rc & ns & (n & Hn & Rn) & Ha & Hm)]] R.
    - inversion R; congruence.
    - exists m. auto.
    - exists n. split; auto. eapply reach_trans; eauto.
  Qed.
  Lemma within_kid h C n a rc ns m : within h C n -> n_kids n = inr a -> h_cell h a = Some (rc, ns) -> In m ns -> within h C m.
  Proof. intros W Q Ha Hm. right. right. exists a, rc, ns. split; auto. eapply within_reach; eauto. now constructor. Qed.
  Lemma within_incl h C D m : incl C D -> within h C m -> within h D m.
  Proof. intros I [?|[?|(a & rc & ns & (n & Hn & R) & ?)]]; [now left|right; left; auto|]. right. right. exists a, rc, ns. split; auto. exists n. auto. Qed.
  Lemma within_present h C m : within h C m -> (exists ts, n_kids m = inl ts) \/ present h C m.
  Proof. intros [?|[?|(a & rc & ns & _ & Ha & Hm)]]; [now left|right; now left|]. right. right. eauto. Qed.

  Lemma frame_refl h C : frame h h C.
  Proof. intros a rc ns _ H. eauto. Qed.
  Lemma frame_reach h h' C n b : frame h h' C -> within h C n -> reach h n b -> reach h' n b.
  Proof.
    intros F W R. induction R as [n a Q|n a rc ns m b Q Ha Hm R IH]; [now constructor|].
    destruct (F a rc ns) as (rc' & Ha'); auto.
    - eapply within_reach; eauto. now constructor.
    - eapply reach_below; eauto. apply IH. eapply within_kid; eauto.
  Qed.
  Lemma frame_creach h h' C b : frame h h' C -> creach h C b -> creach h' C b.
  Proof. intros F (n & Hn & R). exists n. split; auto. eapply frame_reach; eauto. right. now left. Qed.
  Lemma frame_trans h1 h2 h3 C : frame h1 h2 C -> frame h2 h3 C -> frame h1 h3 C.
  Proof. intros A B a rc ns R H. destruct (A _ _ _ R H) as (rc' & H'). eapply B; eauto. eapply frame_creach; eauto. Qed.
  Lemma frame_incl h h' C D : incl D C -> frame h h' C -> frame h h' D.
  Proof. intros I A a rc ns (n & Hn & R). apply A. exists n. auto. Qed.
  Lemma frame_ext h h' C : extends h h' -> frame h h' C.
  Proof. intros X a rc ns _. apply X. Qed.
  Lemma frame_within h h' C m : frame h h' C -> within h C m -> within h' C m.
  Proof.
    intros F [?|[?|(a & rc & ns & R & Ha & Hm)]]; [now left|right; now left|]. right. right.
    destruct (F _ _ _ R Ha) as (rc' & Ha'). exists a, rc', ns. split; auto. eapply frame_creach; eauto.
  Qed.
  Lemma frame_den h h' C : frame h h' C ->
    (forall n t, den h n t -> within h C n -> den h' n t) /\
    (forall ns ts, dens h ns ts -> (forall n, In n ns -> within h C n) -> dens h' ns ts).
  Proof.
    intros F. apply den_dens_ind.
    - constructor.
    - intros p v a rc ns ts Ha D IH W. destruct (F a rc ns) as (rc' & Ha'); auto.
      + eapply within_reach; eauto. now constructor.
      + econstructor; eauto. apply IH. intros m Hm. eapply within_kid; eauto. reflexivity.
    - constructor.
    - intros n t ns ts D IH Ds IHs W. constructor; [apply IH; apply W; now left|apply IHs; intros; apply W; now right].
  Qed.
  Lemma frame_pres h h' C : frame h h' C -> pres h h' C.
  Proof. intros F m t Hm D. apply (frame_den h h' C F); auto. right. now left. Qed.
  Lemma frame_dens_own h h' C ns ts : frame h h' C -> incl ns C -> dens h ns ts -> dens h' ns ts.
  Proof. intros F I. eapply pres_dens; eauto. now apply frame_pres. Qed.

  (** a vector only referred to by a node outside [C] is not reachable from [C] *)
  Lemma reach_last h n a : reach h n a -> n_kids n = inr a \/ exists b rc ns m, h_cell h b = Some (rc, ns) /\ In m ns /\ n_kids m = inr a.
  Proof.
    intros R. induction R as [n a Q|n a rc ns m b Q Ha Hm R IH]; [now left|]. right.
    destruct IH as [Q'|?]; eauto 8.
  Qed.
  Lemma own_unreach h C p v a ns : Inv h (MkN p v (inr a) :: C) -> h_cell h a = Some (1, ns) -> ~ creach h (ns ++ C) a.
  Proof.
    intros I Ha (n & Hn & R). pose proof (inv_count _ _ I a) as Q. rewrite Ha, cnt_cons, ref_self in Q.
    assert (X : forall b rc ms m, h_cell h b = Some (rc, ms) -> In m ms -> n_kids m <> inr a).
    { intros b rc ms m Hb Hm Hk. pose proof (inv_cell_live _ _ _ _ _ _ _ I Hb Hm Hk). lia. }
    apply reach_last in R as [Qn|(b & rc & ms & m & Hb & Hm & Qm)]; [|eapply X; eauto].
    apply in_app_or in Hn as [Hn|Hn]; [eapply X; eauto|]. pose proof (cnt_In _ _ _ Hn Qn). lia.
  Qed.
  Lemma frame_borrow h C p v a ns c : Inv h (MkN p v (inr a) :: C) -> h_cell h a = Some (1, ns) -> frame h (h_upd h a c) (ns ++ C).
  Proof.
    intros I Ha b rc ms R Hb. exists rc. rewrite upd_other; auto. intros ->. eapply own_unreach; eauto.
  Qed.
  Lemma frame_drop fuel : forall h work C h', Inv h (work ++ C) -> drop_loop fuel h work = Some h' -> frame h h' C /\ mono h h'.
  Proof.
    induction fuel as [|fuel IH]; intros h work C h' I; [discriminate|]. cbn [drop_loop].
    destruct work as [|n work]; [intros [= <-]; split; [apply frame_refl|apply mono_refl]|]. cbn [app] in I.
    destruct n as [p v [ts|a]]; cbn [n_kids]; intros H.
    - apply inv_inl in I. eauto.
    - destruct (inv_live h _ a I) as (rc & ns & Ha & Hrc); [rewrite cnt_cons, ref_self; lia|]. rewrite Ha in H.
      destruct rc as [|rc].
      + destruct (borrow_inv _ _ _ _ _ _ I Ha) as (I' & _ & _). rewrite app_assoc in I'.
        destruct (IH _ _ C h' I' H) as (F & M). split; [|eapply mono_trans; [eapply mono_upd; eauto|exact M]].
        eapply frame_trans; [|exact F]. eapply frame_incl; [|eapply frame_borrow; eauto].
        intros m Hm. apply in_or_app. right. apply in_or_app. now right.
      + apply (IH _ work C) in H as (F & M).
        * split; [|eapply mono_trans; [eapply mono_upd; eauto|exact M]].
          eapply frame_trans; [|exact F]. apply frame_ext. eapply rc_extends; eauto.
        * apply (rc_inv h (MkN p v (inr a) :: work ++ C) _ a (S (S rc))); auto; [lia|rewrite (cnt_cons a (MkN p v (inr a))), ref_self; lia|].
          intros b Nb. rewrite cnt_cons. unfold ref. cbn [n_kids].
          replace (a =? b) with false by (symmetry; apply Nat.eqb_neq; auto). reflexivity.
  Qed.
  Lemma drop_frame h work C : Inv h (work ++ C) -> exists h', drop_all h work = Some h' /\ Inv h' C /\ frame h h' C /\ mono h h'.
  Proof.
    intros I. destruct (drop_all_inv h work C I) as (h' & Q & I' & _). exists h'. split; auto. split; auto. eapply frame_drop; eauto.
  Qed.

  (** ** The specification of an operation that turns owned nodes into owned nodes *)
  Definition yields h C (r : option (heap * list node)) ts : Prop :=
    exists h' ns, r = Some (h', ns) /\ Inv h' (ns ++ C) /\ dens h' ns ts /\ frame h h' C /\ mono h h'.
  Definition yield1 h C (r : option (heap * node)) t : Prop :=
    exists h' n, r = Some (h', n) /\ Inv h' (n :: C) /\ den h' n t /\ frame h h' C /\ mono h h'.

  Lemma children_mut_frame h C n p v ts : Inv h (n :: C) -> den h n (Node p v ts) ->
    exists h' a ns, children_mut h n = Some (h', MkN p v (inr a), a) /\ Inv h' (MkN p v (inr a) :: C) /\
      h_cell h' a = Some (1, ns) /\ dens h' ns ts /\ frame h h' C /\ mono h h'.
  Proof.
    intros I D. destruct (children_mut_inv h C n p v ts I D) as (h1 & a & ns & Q & I1 & X & Ha & Dn).
    exists h1, a, ns. repeat (split; auto). { now apply frame_ext. } all: eapply mono_children_mut; eauto.
  Qed.

  (** [inp]: nodes that [f] takes over *)
  Lemma with_children_in f inp h C n p v ts ts' : Inv h (n :: inp ++ C) -> den h n (Node p v ts) ->
    (forall h1 ns, Inv h1 (ns ++ inp ++ C) -> dens h1 ns ts -> frame h h1 (inp ++ C) -> mono h h1 -> yields h1 C (f h1 ns) ts') ->
    yield1 h C (with_children f h n) (Node p v ts').
  Proof.
    intros I D F. unfold with_children. destruct (children_mut_frame h _ n p v ts I D) as (h1 & a & ns & -> & I1 & Ha & Dn & F1 & M1). rewrite Ha.
    destruct (borrow_inv _ _ _ _ _ _ I1 Ha) as (I2 & P2 & Hlt). pose proof (frame_borrow _ _ _ _ _ _ None I1 Ha) as F2.
    assert (F2' : frame h1 (h_upd h1 a None) (inp ++ C)) by (eapply frame_incl; [|exact F2]; intros m Hm; apply in_or_app; now right).
    assert (M2 : mono h1 (h_upd h1 a None)) by (eapply mono_upd; eauto).
    destruct (F (h_upd h1 a None) ns) as (h3 & ns' & -> & I3 & D3 & F3 & M3); auto.
    - eapply pres_dens; [|exact P2|exact Dn]. intros m Hm. apply in_or_app. now left.
    - eapply frame_trans; eauto.
    - eapply mono_trans; eauto.
    - assert (Ha3 : h_cell h3 a = None) by (apply M3; [auto|apply upd_same]).
      assert (Hlt3 : a < h_next h3) by (destruct M3 as [M3 _]; cbn [h_upd h_next] in M3; lia).
      destruct (giveback_inv h3 C p v a ns' I3 Ha3 Hlt3) as (I4 & X4).
      exists (h_upd h3 a (Some (1, ns'))), (MkN p v (inr a)). split; auto. split; auto. split.
      { econstructor; [apply upd_same|]. now apply (den_ext h3 _ X4). }
      assert (IC : incl C (inp ++ C)) by (intros m Hm; apply in_or_app; now right).
      split.
      + eapply frame_trans; [eapply frame_incl; [exact IC|exact F1]|]. eapply frame_trans; [eapply frame_incl; [exact IC|exact F2']|].
        eapply frame_trans; [exact F3|]. now apply frame_ext.
      + eapply mono_trans; [exact M1|]. destruct M2 as [M2 M2'], M3 as [M3 M3']. split.
        * cbn [h_upd h_next] in *. lia.
        * intros b Hb Hc. assert (b <> a) by (intros ->; congruence). rewrite upd_other by auto. apply M3'; [auto|].
          rewrite upd_other by auto. auto.
  Qed.
  Lemma with_children_ok f h C n p v ts ts' : Inv h (n :: C) -> den h n (Node p v ts) ->
    (forall h1 ns, Inv h1 (ns ++ C) -> dens h1 ns ts -> frame h h1 C -> mono h h1 -> yields h1 C (f h1 ns) ts') ->
    yield1 h C (with_children f h n) (Node p v ts').
  Proof. apply (with_children_in f []). Qed.

  Lemma kids_of_ok h n p v ts : den h n (Node p v ts) -> n_prefix n = p /\ n_value n = v /\ exists ns, kids_of h n = Some ns /\ dens h ns ts.
  Proof.
    intros D. inversion D; subst; cbn; repeat split; unfold kids_of; cbn.
    - eexists. split; eauto. apply shallow_dens.
    - match goal with H : h_cell _ _ = _ |- _ => rewrite H end. eauto.
  Qed.
  Lemma kids_within h C n ns : within h C n -> kids_of h n = Some ns -> forall m, In m ns -> within h C m.
  Proof.
    unfold kids_of. intros W Q m Hm. destruct (n_kids n) as [us|a] eqn:Qn.
    - injection Q as <-. apply in_map_iff in Hm as ([p v ws] & <- & _). left. eexists. reflexivity.
    - destruct (h_cell h a) as [[rc ms]|] eqn:Ha; [|discriminate]. injection Q as ->. eapply within_kid; eauto.
  Qed.
  Lemma n_is_empty_ok h n t : den h n t -> n_is_empty h n = Some (t_is_empty t).
  Proof.
    destruct t as [p v ts]. intros D. destruct (kids_of_ok h n p v ts D) as (_ & Qv & ns & Q & Dn). unfold n_is_empty. rewrite Q, Qv.
    inversion Dn; subst; reflexivity.
  Qed.
  Lemma den_prefix h n t : den h n t -> n_prefix n = t_prefix t.
  Proof. intros D; inversion D; reflexivity. Qed.
  Lemma den_value h n t : den h n t -> n_value n = t_value t.
  Proof. intros D; inversion D; reflexivity. Qed.
  Lemma n_set_prefix_ok h C n p q v ts : Inv h (n :: C) -> den h n (Node p v ts) -> Inv h (n_set_prefix q n :: C) /\ den h (n_set_prefix q n) (Node q v ts).
  Proof. intros I D. split; [eapply inv_kids; [|exact I]; reflexivity|]. inversion D; subst; econstructor; eauto. Qed.
  Lemma n_set_value_ok h C n p v w ts : Inv h (n :: C) -> den h n (Node p v ts) -> Inv h (n_set_value w n :: C) /\ den h (n_set_value w n) (Node p w ts).
  Proof. intros I D. split; [eapply inv_kids; [|exact I]; reflexivity|]. inversion D; subst; econstructor; eauto. Qed.
End Frame.

(** ** Simulation of merges *)
Section BsSim.
  Context {A B : Type} (f : A -> option comparison) (g : B -> option comparison) (l : list A) (m : list B).
  Hypothesis Hfg : forall i, match nth_error l i, nth_error m i with
                             | Some x, Some y => f x = g y | None, None => True | _, _ => False end.
  Lemma bs_loop_sim fuel : forall left right cnt, bs_loop f l fuel left right cnt = bs_loop g m fuel left right cnt.
  Proof.
    induction fuel as [|fuel IH]; intros; cbn [bs_loop]; auto. destruct (left <? right); auto.
    specialize (Hfg (left + (right - left) / 2)). destruct (nth_error l _), (nth_error m _); try easy.
    rewrite Hfg. destruct (g b) as [[]|]; auto.
  Qed.
  Lemma bsearch_sim : length l = length m -> bsearch f l = bsearch g m.
  Proof. intros E. unfold bsearch, bs_count. rewrite E. now rewrite bs_loop_sim. Qed.
End BsSim.

Section MergeSim.
  Context {S1 A1 B1 S2 A2 B2 : Type} (O1 : mop S1 A1 B1) (O2 : mop S2 A2 B2) (R : S1 -> S2 -> Prop).
  Definition osim (o1 : out S1) (o2 : out S2) : Prop :=
    match o1 with
    | Cont s1 => exists s2, o2 = Cont s2 /\ R s1 s2
    | Stop s1 => exists s2, o2 = Stop s2 /\ R s1 s2
    | _ => True
    end.
  Record msim : Prop := {
    ms_len_a : forall s1 s2, R s1 s2 -> length (mo_a O1 s1) = length (mo_a O2 s2);
    ms_len_b : forall s1 s2, R s1 s2 -> length (mo_b O1 s1) = length (mo_b O2 s2);
    ms_cmp : forall s1 s2 i j x1 x2 y1 y2, R s1 s2 -> nth_error (mo_a O1 s1) i = Some x1 -> nth_error (mo_a O2 s2) i = Some x2 ->
             nth_error (mo_b O1 s1) j = Some y1 -> nth_error (mo_b O2 s2) j = Some y2 -> mo_cmp O1 x1 y1 = mo_cmp O2 x2 y2;
    ms_fa : forall s1 s2 n, R s1 s2 -> osim (mo_from_a O1 s1 n) (mo_from_a O2 s2 n);
    ms_fb : forall s1 s2 n, R s1 s2 -> osim (mo_from_b O1 s1 n) (mo_from_b O2 s2 n);
    ms_co : forall s1 s2, R s1 s2 -> osim (mo_coll O1 s1) (mo_coll O2 s2) }.
  Hypothesis H : msim.

  Lemma osim_bind o1 o2 k1 k2 : osim o1 o2 -> (forall s1 s2, R s1 s2 -> osim (k1 s1) (k2 s2)) -> osim (obind o1 k1) (obind o2 k2).
  Proof. intros A B. destruct o1; simpl in *; auto; destruct A as (s2 & -> & Rs); simpl; auto. eauto. Qed.
  Lemma nth_len {X Y} (l : list X) (m : list Y) i x : length l = length m -> nth_error l i = Some x -> exists y, nth_error m i = Some y.
  Proof. intros E Q. destruct (nth_error m i) eqn:Qm; eauto. apply nth_error_None in Qm. assert (i < length l) by (apply nth_error_Some; congruence). lia. Qed.
  Lemma nth_firstn {X} (l : list X) n i : nth_error (firstn n l) i = if i <? n then nth_error l i else None.
  Proof.
    revert n i. induction l as [|x l IH]; intros [|n] [|i]; cbn [firstn nth_error]; auto.
    - now destruct (_ <? _).
    - rewrite IH. reflexivity.
  Qed.

  Lemma binary_sim fuel : forall s1 s2 an bn, R s1 s2 -> osim (binary_merge O1 fuel s1 an bn) (binary_merge O2 fuel s2 an bn).
  Proof.
    induction fuel as [|fuel IH]; intros s1 s2 an bn Rs; cbn [binary_merge]; [exact I|].
    destruct (an =? 0); [destruct (bn =? 0)|].
    - simpl. eauto.
    - now apply ms_fb.
    - destruct (bn =? 0); [now apply ms_fa|].
      destruct (nth_error (mo_a O1 s1) (an / 2)) as [x1|] eqn:Q1; [|exact I].
      destruct (nth_len _ (mo_a O2 s2) _ _ (ms_len_a H _ _ Rs) Q1) as (x2 & Q2). rewrite Q2.
      rewrite (bsearch_sim (fun y => option_map CompOpp (mo_cmp O1 x1 y)) (fun y => option_map CompOpp (mo_cmp O2 x2 y))
                 (firstn bn (mo_b O1 s1)) (firstn bn (mo_b O2 s2))).
      + destruct (bsearch _ _) as [bm|bi| |]; try exact I.
        * apply osim_bind; auto. intros t1 t2 Rt. apply osim_bind; [now apply ms_co|]. auto.
        * apply osim_bind; auto. intros t1 t2 Rt. apply osim_bind; [now apply ms_fa|]. auto.
      + intros i. rewrite !nth_firstn. destruct (i <? bn); auto.
        destruct (nth_error (mo_b O1 s1) i) as [y1|] eqn:R1.
        * destruct (nth_len _ (mo_b O2 s2) _ _ (ms_len_b H _ _ Rs) R1) as (y2 & R2). rewrite R2. f_equal. eapply ms_cmp; eauto.
        * destruct (nth_error (mo_b O2 s2) i) as [y2|] eqn:R2; auto.
          destruct (nth_len _ (mo_b O1 s1) _ _ (eq_sym (ms_len_b H _ _ Rs)) R2). congruence.
      + rewrite !firstn_length. now rewrite (ms_len_b H _ _ Rs).
  Qed.
  Lemma tape_sim fuel : forall s1 s2, R s1 s2 -> osim (tape_merge O1 fuel s1) (tape_merge O2 fuel s2).
  Proof.
    induction fuel as [|fuel IH]; intros s1 s2 Rs; cbn [tape_merge]; [exact I|].
    pose proof (ms_len_a H _ _ Rs) as La. pose proof (ms_len_b H _ _ Rs) as Lb.
    destruct (mo_a O1 s1) as [|x1 l1] eqn:D1, (mo_a O2 s2) as [|x2 l2] eqn:D2; try discriminate;
    destruct (mo_b O1 s1) as [|y1 m1] eqn:E1, (mo_b O2 s2) as [|y2 m2] eqn:E2; try discriminate.
    - simpl. eauto.
    - rewrite Lb. now apply ms_fb.
    - rewrite La. now apply ms_fa.
    - rewrite (ms_cmp H s1 s2 0 0 x1 x2 y1 y2 Rs); try (rewrite ?D1, ?D2, ?E1, ?E2; reflexivity).
      destruct (mo_cmp O2 x2 y2) as [[]|]; try exact I; apply osim_bind; auto.
      + now apply ms_co.
      + now apply ms_fa.
      + now apply ms_fb.
  Qed.
  Lemma merge_sim strat s1 s2 : R s1 s2 -> osim (merge O1 strat s1) (merge O2 strat s2).
  Proof.
    intros Rs. unfold merge. rewrite (ms_len_a H _ _ Rs), (ms_len_b H _ _ Rs).
    destruct (strat _ _); [now apply tape_sim|now apply binary_sim].
  Qed.
End MergeSim.

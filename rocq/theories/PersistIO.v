(** Writing a root, pinning, and reading back. *)
From Coq Require Import Permutation.
From Verif Require Export PersistFacts.

Section PersistIO.
  Context {K V : Type}.
  Notation tree := (rtree K V).
  Notation node := (node K V).
  Notation heap := (heap K V).
  Notation frec := (frec K V).
  Notation ser := (ser K V).
  Implicit Types (h : heap) (ns C : list node) (ts : list tree) (g L : list frec) (w : ser) (P : list nat) (dm : list (nat * nat)).

  Lemma reach_pin h p v a x : reach h (MkN p v (inr a)) x <-> reach h (pin a) x.
  Proof. split; intros R; inversion R; subst; (now constructor) || (eapply reach_below; eauto). Qed.
  Lemma grows_forced h C n h' a : Inv h (n :: C) -> force h n = (h', a) -> forced h h'.
  Proof.
    intros I Q b rc ns Hb. pose proof (inv_lt _ _ _ _ I Hb) as Lb. unfold force in Q. destruct (n_kids n).
    - injection Q as <- <-. exists ns. split; [|apply fslot_refl]. cbn.
      replace (b =? h_next h) with false by (symmetry; apply Nat.eqb_neq; lia). auto.
    - injection Q as <- <-. exists ns. split; auto. apply fslot_refl.
  Qed.

  (** ** serialize_value *)
  Lemma ser_root_ok F L h C n t w : Inv h (n :: C) -> den h n t -> tsize t <= F -> length L = s_base w -> in_range w ->
    exists h' n' w' h1 w1 a p, ser_root F h n w = Some (h', n', w') /\ Inv h' (n' :: C) /\ den h' n' t /\
      n' = MkN (t_prefix t) (t_value t) (inr a) /\ forced h h1 /\ (forall m u, den h m u -> den h1 m u) /\
      sstep L a (tsizes (t_children t)) h1 w h' w1 /\ look (s_map w1) a = Some p /\
      w' = s_write (RRoot (MkA (t_prefix t) (t_value t) (s_pos w1 - p))) w1 /\ (forall b, n_kids n = inr b -> a = b /\ h1 = h).
  Proof.
    intros I D HF HL HR. unfold ser_root, touch. cbn [touch_at]. destruct (force h n) as [h1 a] eqn:Q.
    destruct (force_inv h C n h1 a I Q) as (I1 & G & Dn). pose proof (grows_forced _ _ _ _ _ I Q) as F1. pose proof (Dn _ D) as D1.
    assert (Qn : with_arc n a = MkN (t_prefix t) (t_value t) (inr a)).
    { unfold with_arc in *. inversion D1; subst; reflexivity. }
    rewrite Qn in *. destruct t as [q v us]. cbn [t_prefix t_value t_children n_prefix n_value] in *.
    inversion D1 as [|? ? ? rc ns ? Ha Ds]; subst. simpl in HF. fold (tsizes us) in HF.
    destruct (ser_ok F L h1 (MkN q v (inr a) :: C) a rc ns us w I1 Ha Ds) as (h2 & w2 & p & Q2 & I2 & S2 & Lp); auto; try lia.
    rewrite Q2. do 3 eexists. exists h1, w2, a, p. split; [reflexivity|]. split; auto. split; [apply S2; auto|]. split; auto. split; auto.
    split; [intros m u Dm; now apply (den_ext h h1 (grows_ext _ _ G))|]. split; auto. split; auto. split; auto.
    intros b Hb. unfold force in Q. rewrite Hb in Q. now injection Q as <- <-.
  Qed.
  Lemma ser_root_file L h h1 h' w w1 a p t : sstep L a (tsizes (t_children t)) h1 w h' w1 -> length L = s_base w -> in_range w ->
    valid h (s_map w) (L ++ s_out w) -> (forall m u, den h m u -> den h1 m u) -> look (s_map w1) a = Some p ->
    den h' (MkN (t_prefix t) (t_value t) (inr a)) t ->
    let w' := s_write (RRoot (MkA (t_prefix t) (t_value t) (s_pos w1 - p))) w1 in
    froot (L ++ s_out w') t /\ valid h' (s_map w') (L ++ s_out w') /\ in_range w'.
  Proof.
    intros S HL HR Va P1 Lp D w'. assert (Va1 : valid h1 (s_map w) (L ++ s_out w)).
    { intros x q Hx. destruct (Va _ _ Hx) as (us & Du & Fu). exists us. split; auto. }
    pose proof (sstep_valid _ _ _ _ _ _ _ S Va1) as V2. pose proof (sstep_range _ _ _ _ _ _ _ S HR) as R2.
    destruct t as [q v us]. cbn [t_prefix t_value t_children] in *. apply pin_den in D. destruct (V2 _ _ Lp) as (us' & Du & Fu).
    pose proof (proj1 (den_fun h') _ _ D _ Du) as [= <-]. pose proof (R2 _ _ Lp) as Hp.
    assert (E : length (L ++ s_out w1) = s_pos w1) by (unfold s_pos; rewrite app_length, HL; f_equal; symmetry; apply S).
    subst w'. unfold s_write at 1 2 3 4. cbn [s_out s_map]. rewrite app_assoc. split; [|split].
    - assert (El : length ((L ++ s_out w1) ++ [RRoot (MkA q v (s_pos w1 - p))]) - 1 = s_pos w1) by (rewrite app_length, E; cbn; lia).
      apply (froot_intro _ q v (s_pos w1 - p) us).
      + rewrite app_length. cbn. lia.
      + rewrite El, nth_error_app2 by lia. now rewrite E, Nat.sub_diag.
      + lia.
      + rewrite El. lia.
      + rewrite El. replace (s_pos w1 - (s_pos w1 - p)) with p by lia. now apply fden_app.
    - intros x r Hx. destruct (V2 _ _ Hx) as (vs & Dv & Fv). exists vs. split; auto. now apply fden_app.
    - intros x r Hx. cbn [s_write s_map] in Hx. specialize (R2 _ _ Hx). unfold s_pos in *. cbn [s_write s_out s_base]. rewrite app_length. lia.
  Qed.

  (** ** all_arcs *)
  Lemma extends_reach h h' n b : extends h h' -> reach h n b -> reach h' n b.
  Proof. intros X R. induction R as [n a Q|n a rc ns m b Q Ha Hm R IH]; [now constructor|]. destruct (X _ _ _ Ha) as (rc' & Ha'). eapply reach_below; eauto. Qed.
  Lemma extends_reach_back h h' C n t b : extends h h' -> den h n t -> reach h' n b -> present h C n -> Inv h C -> reach h n b.
  Proof.
    intros X D R. revert t D. induction R as [n a Q|n a rc ns m b Q Ha Hm R IH]; intros t D Pr I; [now constructor|].
    destruct n as [p v k]. cbn in Q. subst k. inversion D as [|? ? ? rc0 ns0 ts Ha0 Ds]; subst. destruct (X _ _ _ Ha0) as (rc' & Ha').
    assert (ns0 = ns) by congruence. subst ns0. destruct (dens_in h ns ts m Ds Hm) as (u & Du & _). eapply reach_below; eauto.
    - reflexivity.
    - eapply IH; eauto. right. eauto.
  Qed.
  Lemma drop_pin h a r ns : h_cell h a = Some (S (S r), ns) -> drop_all h [pin a] = Some (h_upd h a (Some (S r, ns))).
  Proof. intros H. unfold drop_all. cbn [length Nat.add drop_loop pin n_kids]. now rewrite H. Qed.
  Definition arcs_spec F := forall h C P n t, Inv h (C ++ map pin P) -> den h n t -> tsize t <= F -> present h (C ++ map pin P) n ->
    exists h' P', all_arcs F h n P = Some (h', P') /\ Inv h' (C ++ map pin P') /\ extends h h' /\ incl P P' /\ (forall b, reach h n b -> In b P').
  Lemma arcs_nodes_ok F : arcs_spec F -> forall ns ts h C P, Inv h (C ++ map pin P) -> dens h ns ts -> tsizes ts <= F ->
    (forall n, In n ns -> present h (C ++ map pin P) n) ->
    exists h' P', arcs_nodes (all_arcs F) ns h P = Some (h', P') /\ Inv h' (C ++ map pin P') /\ extends h h' /\ incl P P' /\
      (forall n b, In n ns -> reach h n b -> In b P').
  Proof.
    intros SP ns ts h C P I D. revert C P I. induction D as [|n t ns ts Dn Ds IH]; intros C P I HF HP; cbn [arcs_nodes].
    - exists h, P. split; auto. split; auto. split; [apply extends_refl|]. split; [apply incl_refl|easy].
    - unfold tsizes in HF. simpl in HF. fold (tsizes ts) in HF.
      destruct (SP h C P n t I Dn) as (h1 & P1 & Q1 & I1 & X1 & U1 & R1); [lia|apply HP; now left|]. rewrite Q1.
      assert (IHs : forall h1 C P, extends h h1 -> Inv h1 (C ++ map pin P) -> tsizes ts <= F -> (forall n, In n ns -> present h1 (C ++ map pin P) n) ->
        exists h' P', arcs_nodes (all_arcs F) ns h1 P = Some (h', P') /\ Inv h' (C ++ map pin P') /\ extends h1 h' /\ incl P P' /\
          (forall n b, In n ns -> reach h1 n b -> In b P')).
      { clear - SP Ds. intros h1 C P X. pose proof (proj2 (den_ext h h1 X) _ _ Ds) as D1. clear Ds X. revert C P.
        revert h1 D1. generalize dependent ts. induction ns as [|m ns IHn]; intros ts h1 D1 C P I HF HP; cbn [arcs_nodes].
        - exists h1, P. split; auto. split; auto. split; [apply extends_refl|]. split; [apply incl_refl|easy].
        - inversion D1 as [|? t ? ts' Dm Dms]; subst. unfold tsizes in HF. simpl in HF. fold (tsizes ts') in HF.
          destruct (SP h1 C P m t I Dm) as (h2 & P2 & Q2 & I2 & X2 & U2 & R2); [lia|apply HP; now left|]. rewrite Q2.
          destruct (IHn ts' h2 (proj2 (den_ext h1 h2 X2) _ _ Dms) C P2 I2) as (h3 & P3 & Q3 & I3 & X3 & U3 & R3); [lia| |].
          { intros n Hn. eapply present_ext; [exact X2| |apply HP; now right].
            intros y Hy. apply in_app_or in Hy as [Hy|Hy]; apply in_or_app; [now left|right]. apply in_map_iff in Hy as (z & <- & Hz). apply in_map. auto. }
          exists h3, P3. split; auto. split; auto. split; [eapply extends_trans; eauto|]. split; [eapply incl_tran; eauto|].
          intros n b [<-|Hn] Hr; [apply U3; eauto|]. eapply R3; eauto. eapply extends_reach; eauto. }
      destruct (IHs h1 C P1 X1 I1) as (h2 & P2 & Q2 & I2 & X2 & U2 & R2); [lia| |].
      { intros m Hm. eapply present_ext; [exact X1| |apply HP; now right].
        intros y Hy. apply in_app_or in Hy as [Hy|Hy]; apply in_or_app; [now left|right]. apply in_map_iff in Hy as (z & <- & Hz). apply in_map. auto. }
      exists h2, P2. split; auto. split; auto. split; [eapply extends_trans; eauto|]. split; [eapply incl_tran; eauto|].
      intros m b [<-|Hm] Hr; [apply U2; eauto|]. eapply R2; eauto. eapply extends_reach; eauto.
  Qed.
  Lemma all_arcs_ok F : arcs_spec F.
  Proof.
    induction F as [|F IH]; intros h C P n t I D HF HP.
    { destruct t. simpl in HF. lia. }
    cbn [all_arcs]. destruct n as [p v [us|a]]; cbn [n_kids].
    { exists h, P. split; auto. split; auto. split; [apply extends_refl|]. split; [apply incl_refl|]. intros b R. inversion R; discriminate. }
    inversion D as [|? ? ? rc ns ts Ha Ds]; subst. simpl in HF. fold (tsizes ts) in HF.
    pose proof (present_live _ _ _ a I HP eq_refl) as Hl. destruct (arc_clone_inv h _ a [] None I Hl) as (h1 & Q1 & I1 & G1). rewrite Q1.
    assert (Hm : exists h2 P2, (if existsb (Nat.eqb a) P then match drop_all h1 [pin a] with Some h2 => Some (h2, P) | None => None end else Some (h1, a :: P)) = Some (h2, P2)
      /\ Inv h2 (C ++ map pin P2) /\ extends h h2 /\ incl P P2 /\ In a P2).
    { destruct (existsb (Nat.eqb a) P) eqn:Qe.
      - apply existsb_exists in Qe as (a' & Hin & Qa). apply Nat.eqb_eq in Qa. subst a'.
        pose proof (inv_count _ _ I a) as Rc. rewrite Ha in Rc.
        assert (Hc : 0 < rc) by lia. destruct rc as [|rc]; [lia|].
        assert (Q1' : h_cell h1 a = Some (S (S rc), ns)).
        { unfold arc_clone in Q1. rewrite Ha in Q1. injection Q1 as <-. apply upd_same. }
        rewrite (drop_pin _ _ _ _ Q1'). exists (h_upd h1 a (Some (S rc, ns))), P. split; auto.
        assert (I2 : Inv (h_upd h1 a (Some (S rc, ns))) (C ++ map pin P)).
        { eapply rc_inv; [exact I1|exact Q1'|lia| |].
          - rewrite cnt_cons, ref_self. lia.
          - intros b Nb. rewrite cnt_cons. unfold ref. cbn [n_kids]. replace (a =? b) with false by (symmetry; apply Nat.eqb_neq; auto). reflexivity. }
        split; auto. split; [eapply extends_trans; [apply grows_ext; exact G1|eapply rc_extends; eauto]|]. split; [apply incl_refl|auto].
      - exists h1, (a :: P). split; auto. split; [eapply inv_perm; [|exact I1]; cbn [map]; apply Permutation_middle|].
        split; [now apply grows_ext|]. split; [now apply incl_tl, incl_refl|now left]. }
    destruct Hm as (h2 & P2 & -> & I2 & X2 & U2 & In2). destruct (X2 _ _ _ Ha) as (rc2 & Ha2). rewrite Ha2.
    destruct (arcs_nodes_ok F IH ns ts h2 C P2 I2) as (h3 & P3 & Q3 & I3 & X3 & U3 & R3).
    { now apply (den_ext h h2 X2). }
    { lia. }
    { intros m Hm. right. eauto. }
    exists h3, P3. split; auto. split; auto. split; [eapply extends_trans; eauto|]. split; [eapply incl_tran; eauto|].
    intros b R. inversion R as [? ? Q|? ? ? ? ? ? Q Hb Hm R']; subst; cbn in Q; injection Q as <-; [now apply U3|].
    rewrite Ha in Hb. injection Hb as <- <-. eapply R3; eauto. eapply extends_reach; eauto.
  Qed.

  (** ** Reading *)
  Definition dpins dm : list node := map (fun e => pin (snd e)) dm.
  Definition dslot dm (p : nat) (c : node) (x : anode K V) : Prop :=
    exists b, c = MkN (a_prefix x) (a_value x) (inr b) /\ 0 < a_back x /\ a_back x <= p /\ In (p - a_back x, b) dm.
  Definition dmirror g h dm (p a : nat) : Prop :=
    exists rc ns l, h_cell h a = Some (rc, ns) /\ nth_error g p = Some (RVec l) /\ Forall2 (dslot dm p) ns l.
  Record dmok g h dm : Prop := {
    dk_fst : NoDup (map fst dm);
    dk_snd : NoDup (map snd dm);
    dk_lt : forall q x, In (q, x) dm -> x < h_next h;
    dk_val : forall q x, In (q, x) dm -> exists us, den h (pin x) (Node [] None us) /\ fden g q us;
    dk_mirror : forall q x, In (q, x) dm -> dmirror g h dm q x }.
  Lemma dmirror_mono g h h' dm dm' p a : extends h h' -> incl dm dm' -> dmirror g h dm p a -> dmirror g h' dm' p a.
  Proof.
    intros X U (rc & ns & l & Ha & Hp & F). destruct (X _ _ _ Ha) as (rc' & Ha'). exists rc', ns, l. split; auto. split; auto.
    eapply Forall2_imp; [|exact F]. intros c x (b & A). exists b. intuition.
  Qed.
  Lemma dmok_ext g h h' dm : extends h h' -> h_next h <= h_next h' -> dmok g h dm -> dmok g h' dm.
  Proof.
    intros X N [a b c d e]. constructor; auto.
    - intros q x Hx. specialize (c _ _ Hx). lia.
    - intros q x Hx. destruct (d _ _ Hx) as (us & Du & Fu). exists us. split; auto. now apply (den_ext h h' X).
    - intros q x Hx. eapply dmirror_mono; eauto. apply incl_refl.
  Qed.
  Definition de_spec F := forall g h C p ts dm, fden g p ts -> tsizes ts < F -> Inv h (C ++ dpins dm) -> dmok g h dm ->
    exists h' dm' a, de_arc F g h p dm = Some (h', dm', a) /\ Inv h' (pin a :: C ++ dpins dm') /\ extends h h' /\ h_next h <= h_next h' /\
      incl dm dm' /\ dmok g h' dm' /\ In (p, a) dm' /\ (forall q x, In (q, x) dm' -> In (q, x) dm \/ (q <= p /\ reach h' (pin a) x)).
  Lemma de_nodes_ok F g p : de_spec F -> forall l ts h C dm, fdens g p l ts -> tsizes ts <= F -> Inv h (C ++ dpins dm) -> dmok g h dm ->
    exists h' dm' ns, de_nodes (de_arc F g) p l h dm = Some (h', dm', ns) /\ Inv h' (ns ++ C ++ dpins dm') /\ extends h h' /\ h_next h <= h_next h' /\
      incl dm dm' /\ dmok g h' dm' /\ dens h' ns ts /\ Forall2 (dslot dm' p) ns l /\
      (forall q x, In (q, x) dm' -> In (q, x) dm \/ (q < p /\ exists n, In n ns /\ reach h' n x)).
  Proof.
    intros SP l ts h C dm D. revert h C dm. remember p as p0 eqn:Ep in D. induction D as [p0|p0 q v k l us ts Hk Hp Dx Ds IH]; intros h C dm HF I Ok; subst; cbn [de_nodes].
    - exists h, dm, []. split; auto. split; auto. split; [apply extends_refl|]. split; auto. split; [apply incl_refl|]. split; auto. split; [constructor|]. split; [constructor|auto].
    - cbn [a_back a_prefix a_value]. replace (k <=? p) with true by (symmetry; apply Nat.leb_le; lia).
      unfold tsizes in HF. simpl in HF. fold (tsizes us) in HF. fold (tsizes ts) in HF.
      destruct (SP g h C (p - k) us dm Dx ltac:(lia) I Ok) as (h1 & dm1 & a & -> & I1 & X1 & N1 & U1 & Ok1 & In1 & R1).
      destruct (IH eq_refl h1 (pin a :: C) dm1) as (h2 & dm2 & ns & Q2 & I2 & X2 & N2 & U2 & Ok2 & D2 & F2 & R2); auto; try lia. rewrite Q2.
      exists h2, dm2, (MkN q v (inr a) :: ns). split; auto.
      assert (Da : den h2 (pin a) (Node [] None us)).
      { destruct (dk_val _ _ _ Ok1 _ _ In1) as (us' & Du & Fu). pose proof (proj1 (fden_fun g) _ _ Dx _ Fu) as <-. now apply (den_ext h1 h2 X2). }
      split.
      { eapply (inv_kids _ _ (pin a)); [reflexivity|]. eapply inv_perm; [|exact I2]. symmetry. apply Permutation_middle. }
      split; [eapply extends_trans; eauto|]. split; [lia|]. split; [eapply incl_tran; eauto|]. split; auto.
      split; [constructor; auto; now apply pin_den|]. split; [constructor; auto; exists a; cbn; repeat split; auto|].
      intros y x Hx. destruct (R2 _ _ Hx) as [Hx'|(Ly & n & Hn & Hr)].
      + destruct (R1 _ _ Hx') as [?|(Ly & Hr)]; [now left|]. right. split; [lia|]. exists (MkN q v (inr a)). split; [now left|].
        apply reach_pin. eapply extends_reach; eauto.
      + right. split; [lia|]. exists n. split; auto. now right.
  Qed.
  Lemma clone_next h a h' : arc_clone h a = Some h' -> h_next h' = h_next h.
  Proof. unfold arc_clone. destruct (h_cell h a) as [[]|]; [intros [= <-]|discriminate]. reflexivity. Qed.
  Lemma de_ok F : de_spec F.
  Proof.
    induction F as [|F IH]; intros g h C p ts dm D HF I Ok; [lia|]. cbn [de_arc]. destruct (look dm p) as [a|] eqn:Qp.
    - apply look_in in Qp. destruct (arc_clone_inv h (C ++ dpins dm) a [] None I) as (h1 & Q1 & I1 & G1).
      { assert (0 < cnt a (C ++ dpins dm)); [|lia]. apply (cnt_In a (pin a)); [|reflexivity]. apply in_or_app. right. unfold dpins.
        change (pin a) with ((fun e : nat * nat => @pin K V (snd e)) (p, a)). now apply in_map. }
      pose proof (grows_ext _ _ G1) as X1. pose proof (clone_next _ _ _ Q1) as N1. rewrite Q1. exists h1, dm, a. split; auto. split; auto. split; auto.
      split; [lia|]. split; [apply incl_refl|]. split; [eapply dmok_ext; eauto; lia|]. split; auto.
    - inversion D as [? l ? Hn Ds]; subst. rewrite Hn.
      destruct (de_nodes_ok F g p IH l ts h C dm Ds ltac:(lia) I Ok) as (h1 & dm1 & ns & -> & I1 & X1 & N1 & U1 & Ok1 & D1 & F1 & R1).
      destruct (arc_new h1 ns) as [h2 a] eqn:Qa.
      destruct (new_inv h1 ns _ [] None h2 a I1 Qa) as (I2 & G2 & Ha & Hf & N2). pose proof (grows_ext _ _ G2) as X2.
      assert (Np : forall x, ~ In (p, x) dm1).
      { intros x Hx. destruct (R1 _ _ Hx) as [Hx'|(Lp & _)]; [|lia]. apply in_look in Hx'. congruence. }
      destruct (look dm1 p) as [x|] eqn:Qx; [apply look_in in Qx; now apply Np in Qx|].
      destruct (arc_clone_inv h2 _ a [] None I2) as (h3 & Q3 & I3 & G3).
      { rewrite cnt_cons, ref_self. lia. }
      pose proof (grows_ext _ _ G3) as X3. pose proof (clone_next _ _ _ Q3) as N3. rewrite Q3. exists h3, ((p, a) :: dm1), a. split; auto.
      assert (X13 : extends h1 h3) by (eapply extends_trans; eauto).
      assert (Qn : a = h_next h1) by (now injection Qa). assert (Qn2 : h_next h2 = S (h_next h1)) by (now injection Qa as <- _).
      destruct (X3 _ _ _ Ha) as (rc3 & Ha3).
      assert (Da : den h3 (pin a) (Node [] None ts)) by (econstructor; [exact Ha3|now apply (den_ext h1 h3 X13)]).
      split; [cbn [dpins map snd]; eapply inv_perm; [|exact I3]; apply perm_skip, (Permutation_middle C (dpins dm1) (pin a))|].
      split; [eapply extends_trans; eauto|]. split; [lia|]. split; [now apply incl_tl|]. split.
      { pose proof (dmok_ext g h1 h3 dm1 X13 ltac:(lia) Ok1) as [k1 k2 k3 k4 k5]. constructor.
        - cbn. constructor; auto. intros Hin. apply in_map_iff in Hin as ([q x] & E & Hin). cbn in E. subst q. now apply Np in Hin.
        - cbn. constructor; auto. intros Hin. apply in_map_iff in Hin as ([q x] & E & Hin). cbn in E. subst x.
          pose proof (dk_lt _ _ _ Ok1 _ _ Hin). lia.
        - intros q x [[= <- <-]|Hx]; [lia|eauto].
        - intros q x [[= <- <-]|Hx]; [|eauto]. exists ts. split; auto.
        - intros q x [[= <- <-]|Hx].
          + exists rc3, ns, l. split; auto. split; auto. eapply Forall2_imp; [|exact F1]. intros c y (b & A1 & A2 & A3 & A4). exists b. repeat split; auto. now right.
          + eapply dmirror_mono; [apply extends_refl| |eapply k5; eauto]. now apply incl_tl, incl_refl. }
      split; [now left|]. intros q x [[= <- <-]|Hx]; [right; split; auto; now constructor|].
      destruct (R1 _ _ Hx) as [?|(Lq & n & Hin & Hr)]; [now left|]. right. split; [lia|].
      eapply reach_below; [reflexivity|exact Ha3|exact Hin|]. eapply extends_reach; eauto.
  Qed.
End PersistIO.

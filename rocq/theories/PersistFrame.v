(** What a call leaves alone on the heap: every vector that can be reached from a register the call does not
    name keeps its contents, except that nodes of an archive may have been materialised in place. *)
From Coq Require Import Permutation.
From Verif Require Export PersistIO PersistRegs.

Section PersistFrame.
  Context {K V : Type} (kcmp : K -> K -> comparison) (strat : nat -> nat -> bool) (arc : bool).
  Notation tree := (rtree K V).
  Notation node := (node K V).
  Notation heap := (heap K V).
  Implicit Types (h : heap) (ns C : list node) (ts : list tree) (vs : regs tree) (s : regs node).

  Definition untouched h h' C : Prop :=
    forall a rc ns, creach h C a -> h_cell h a = Some (rc, ns) -> exists rc' ns', h_cell h' a = Some (rc', ns') /\ Forall2 fslot ns ns'.
  Lemma frame_untouched h h' C : frame h h' C -> untouched h h' C.
  Proof. intros F a rc ns R H. destruct (F _ _ _ R H) as (rc' & H'). exists rc', ns. split; auto. apply fslot_refl. Qed.
  Lemma forced_untouched h h' C : forced h h' -> untouched h h' C.
  Proof. intros F a rc ns _ H. destruct (F _ _ _ H) as (ns' & H' & X). eauto. Qed.
  Lemma untouched_ext h h1 h2 C : untouched h h1 C -> extends h1 h2 -> untouched h h2 C.
  Proof. intros U X a rc ns R H. destruct (U _ _ _ R H) as (rc' & ns' & H' & F). destruct (X _ _ _ H') as (rc2 & H2). eauto. Qed.
  Lemma untouched_incl h h' C D : incl D C -> untouched h h' C -> untouched h h' D.
  Proof. intros I U a rc ns (n & Hn & R). apply U. exists n. auto. Qed.

  (** ** Mutation in place *)
  Definition act_fr (inp : list node) (act : action) : Prop := forall C h n t h' n' nout,
    Inv h (n :: inp ++ C) -> den h n t -> act h n = Some (h', n', nout) -> frame h h' C /\ mono h h'.
  Lemma mut_at_fr inp act path : act_fr inp act -> act_fr inp (mut_at path act).
  Proof.
    intros A. induction path as [|i path IH]; [exact A|]. intros C h n [p v ts] h' n' nout I D Q. cbn [mut_at] in Q.
    destruct (children_mut_frame h (inp ++ C) n p v ts I D) as (h1 & a & ns & Qm & I1 & Ha & Dn & F1 & M1). rewrite Qm, Ha in Q.
    destruct (nth_error ns i) as [c|] eqn:Hn; [|discriminate].
    destruct (mut_at path act (h_upd h1 a None) c) as [[[h3 c'] x]|] eqn:Q3; [|discriminate]. injection Q as <- <- <-.
    destruct (borrow_inv _ _ _ _ _ _ I1 Ha) as (I2 & P2 & Hlt). pose proof (frame_borrow _ _ _ _ _ _ None I1 Ha) as F2. set (h2 := h_upd h1 a None) in *.
    pose proof (nth_split3 ns i c Hn) as Sp. set (l := firstn i ns) in *. set (r := skipn (S i) ns) in *.
    assert (I2' : Inv h2 (c :: inp ++ ((l ++ r) ++ C))).
    { eapply inv_perm; [|exact I2]. rewrite Sp at 1. rewrite <- !app_assoc. simpl.
      etransitivity; [apply Permutation_sym, Permutation_middle|]. apply perm_skip.
      rewrite !app_assoc. apply Permutation_app_tail. rewrite <- (app_assoc inp). apply Permutation_app_comm. }
    assert (exists tc, den h2 c tc) as (tc & Dc).
    { apply (inv_den_node h2 (c :: inp ++ ((l ++ r) ++ C)) c I2'). now left. }
    destruct (IH _ _ _ _ _ _ _ I2' Dc Q3) as (F3 & M3).
    assert (Ha3 : h_cell h3 a = None) by (apply M3; [exact Hlt|apply upd_same]).
    assert (X4 : extends h3 (h_upd h3 a (Some (1, upd_nth i c' ns)))).
    { intros b rc ms Hb. exists rc. rewrite upd_other; auto. congruence. }
    split.
    - eapply frame_trans; [eapply frame_incl; [|exact F1]; intros y Hy; apply in_or_app; now right|].
      eapply frame_trans; [eapply frame_incl; [|exact F2]; intros y Hy; apply in_or_app; right; apply in_or_app; now right|].
      eapply frame_trans; [eapply frame_incl; [|exact F3]; intros y Hy; apply in_or_app; now right|]. now apply frame_ext.
    - destruct M1 as [M1 M1'], M3 as [M3 M3']. split; [cbn in *; lia|].
      intros b Hb N. specialize (M1' b Hb N). assert (b <> a) by congruence. rewrite upd_other by auto. apply M3'; [cbn; lia|].
      unfold h2. now rewrite upd_other.
  Qed.
  Lemma act_prefix_fr p : act_fr [] (act_prefix p).
  Proof. intros C h n t h' n' nout _ _ [= <- <- <-]. split; [apply frame_refl|apply mono_refl]. Qed.
  Lemma act_value_fr v : act_fr [] (act_value v).
  Proof. intros C h n t h' n' nout _ _ [= <- <- <-]. split; [apply frame_refl|apply mono_refl]. Qed.
  Lemma act_insert_fr j m : act_fr [m] (act_insert j m).
  Proof.
    intros C h n [p v ts] h' n' nout I D Q. unfold act_insert in Q.
    destruct (children_mut_frame h _ n p v ts I D) as (h1 & a & ns & Qm & I1 & Ha & Dn & F1 & M1). rewrite Qm, Ha in Q.
    destruct (j <=? length ns); [|discriminate]. injection Q as <- <- <-. split.
    - eapply frame_trans; [eapply frame_incl; [|exact F1]; intros y Hy; now right|].
      eapply frame_incl; [|eapply frame_borrow; eauto]. intros y Hy. apply in_or_app. right. now right.
    - eapply mono_trans; [exact M1|eapply mono_upd; eauto].
  Qed.
  Lemma act_remove_fr j : act_fr [] (act_remove j).
  Proof.
    intros C h n [p v ts] h' n' nout I D Q. unfold act_remove in Q.
    destruct (children_mut_frame h _ n p v ts I D) as (h1 & a & ns & Qm & I1 & Ha & Dn & F1 & M1). rewrite Qm, Ha in Q.
    destruct (nth_error ns j); [|discriminate]. injection Q as <- <- <-. split.
    - eapply frame_trans; [exact F1|]. eapply frame_incl; [|eapply frame_borrow; eauto]. intros y Hy. apply in_or_app. now right.
    - eapply mono_trans; [exact M1|eapply mono_upd; eauto].
  Qed.

  (** ** Reading *)
  Lemma touch_at_forced path : forall h C a h' b, Inv h C -> touch_at path h a = Some (h', b) -> forced h h'.
  Proof.
    induction path as [|i path IH]; intros h C a h' b I; cbn [touch_at]; [intros [= <- <-]; apply forced_refl|].
    destruct (force_at h a i) as [h1|] eqn:Q; [|discriminate]. pose proof Q as Qf. unfold force_at in Q.
    destruct (h_cell h a) as [[rc ns]|] eqn:Ha; [|discriminate]. destruct (nth_error ns i) as [c|] eqn:Hn; [|discriminate]. clear Q.
    destruct (force_at_inv h C a i rc ns c I Ha Hn) as (h1' & d & ns1 & Qf' & I1 & P1 & Ha1 & Hn1 & _). rewrite Qf in Qf'. injection Qf' as <-.
    rewrite Ha1, Hn1. cbn [with_arc n_kids]. intros H. eapply forced_trans; [eapply force_at_forced; eauto|eauto].
  Qed.
  Lemma touch_forced path h C n h' n' b : Inv h (n :: C) -> touch path h n = Some (h', n', b) -> forced h h'.
  Proof.
    intros I. unfold touch. destruct (force h n) as [h1 a] eqn:Q. destruct (force_inv h C n h1 a I Q) as (I1 & _ & _).
    destruct (touch_at path h1 a) as [[h2 d]|] eqn:Qt; [|discriminate]. intros [= <- <- <-].
    eapply forced_trans; [eapply grows_forced; eauto|eapply touch_at_forced; eauto].
  Qed.

  (** ** Calls *)
  Lemma rget_nodes j s n : rget j s = Some n -> In n (nodes_of s).
  Proof.
    unfold rget. destruct (nth_error s j) as [[m|]|] eqn:Q; try discriminate. intros [= ->]. apply in_flat_map. exists (Some n).
    split; [eapply nth_error_In; eauto|now left].
  Qed.
  Lemma one_incl (n : node) C : In n C -> incl [n] C.
  Proof. intros H y [<-|[]]. auto. Qed.
  Lemma in_reg_fr i act inp h s vs h' s' x j n : act_fr inp act -> Inv h (static :: inp ++ nodes_of s) -> rel h s vs -> in_reg i act h s = Some (h', s', x) ->
    rget j s = Some n -> j <> i -> frame h h' [n].
  Proof.
    intros A I R H Hj N. unfold in_reg in H. destruct (rtake i s) as [[m s1]|] eqn:Q; [|discriminate].
    destruct (act h m) as [[[h1 m1] y]|] eqn:Qa; [|discriminate]. destruct (rput i m1 s1); [|discriminate]. injection H as <- <- <-.
    pose proof (rtake_other i j m s s1 Q N) as E. rewrite Hj in E. apply rget_nodes in E.
    assert (P : Permutation (nodes_of s) (m :: nodes_of s1)).
    { unfold rtake in Q. destruct (rget i s) eqn:Qi; [|discriminate]. injection Q as -> <-. apply nodes_upd_take. unfold rget in Qi. now destruct (nth_error s i) as [[?|]|]; inversion Qi. }
    assert (I' : Inv h (m :: inp ++ (static :: nodes_of s1))).
    { eapply inv_perm; [|exact I]. rewrite P. etransitivity; [apply perm_skip, Permutation_sym, Permutation_middle|].
      etransitivity; [apply perm_swap|]. apply perm_skip, Permutation_middle. }
    destruct (inv_den_node h _ m I') as (t & D); [now left|]. destruct (A _ _ _ _ _ _ _ I' D Qa) as (F & _).
    eapply frame_incl; [|exact F]. apply one_incl. now right.
  Qed.
  Lemma rtake_perm i s (m : node) s1 : rtake i s = Some (m, s1) -> Permutation (nodes_of s) (m :: nodes_of s1).
  Proof.
    unfold rtake. destruct (rget i s) eqn:Qi; [|discriminate]. intros [= -> <-]. apply nodes_upd_take. unfold rget in Qi. now destruct (nth_error s i) as [[?|]|]; inversion Qi.
  Qed.
  Lemma hstep_untouched o h s vs vs' st' j n : good (h, s) vs -> vstep o vs = Some vs' -> hstep arc o (h, s) = Some st' ->
    rget j s = Some n -> ~ In j (names o) -> untouched h (fst st') [n].
  Proof.
    intros (I & Ds & R) Hv H Hj N. cbn [fst snd] in *. destruct o as [k|p v src k|w t k|t k|i k|i|i k|i path|i path c k|i path p|i path v|i path pos src|i path pos k]; cbn [hstep vstep names] in *.
    - (* OEmpty *) destruct (mk_empty arc h) as [[h1 e]|] eqn:Q; [|discriminate]. destruct (rput k e s); [|discriminate]. injection H as <-. cbn [fst].
      apply frame_untouched. unfold mk_empty in Q. destruct arc; [|injection Q as <- <-; apply frame_refl].
      destruct (arc_clone_inv h _ 0 [] None I) as (h1' & Q' & _ & G); [rewrite cnt_cons; change (ref 0 static) with 1; lia|].
      rewrite Q' in Q. injection Q as <- <-. now apply frame_ext, grows_ext.
    - (* ONew *) destruct (rtakes src vs) as [[ts v1]|] eqn:Qv; [|discriminate].
      destruct (rtakes_rel h src s vs ts v1 R Qv) as (ns & s1 & Qs & Dn & R1 & P1). rewrite Qs in H.
      destruct (wrap_inv arc h ns (nodes_of s1) p v ts) as (h1 & a & Qw & _ & X & _); auto.
      { eapply inv_perm; [|exact I]. rewrite P1. apply Permutation_middle. }
      rewrite Qw in H. destruct (rput k _ s1); [|discriminate]. injection H as <-. apply frame_untouched, frame_ext, X.
    - (* OFrom *) destruct (of_tree_inv arc w t h _ I Ds) as (h1 & m & Q & _ & X & _). rewrite Q in H. destruct (rput k m s); [|discriminate].
      injection H as <-. apply frame_untouched, frame_ext, X.
    - (* OArchive *) destruct (rput k (shallow t) s); [|discriminate]. injection H as <-. apply frame_untouched, frame_refl.
    - (* OClone *) destruct (rget i s) as [m|] eqn:Q; [|discriminate]. pose proof (rget_nodes _ _ _ Q) as Hin.
      destruct (node_clone_inv h _ m I) as (h1 & Qc & _ & G); [left; now right|]. rewrite Qc in H. destruct (rput k m s); [|discriminate].
      injection H as <-. apply frame_untouched, frame_ext, grows_ext, G.
    - (* ODrop *) destruct (rtake i s) as [[m s1]|] eqn:Q; [|discriminate].
      destruct (drop_frame h [m] (static :: nodes_of s1)) as (h1 & Qd & _ & Fr & _).
      { eapply inv_perm; [|exact I]. rewrite (rtake_perm _ _ _ _ Q). apply perm_swap. }
      rewrite Qd in H. injection H as <-. apply frame_untouched. eapply frame_incl; [|exact Fr]. apply one_incl. right. apply (rget_nodes j).
      rewrite (rtake_other i j m s s1 Q); auto. intros ->. apply N. now left.
    - (* OMove *) destruct (rtake i s) as [[m s1]|]; [|discriminate]. destruct (rput k m s1); [|discriminate]. injection H as <-. apply frame_untouched, frame_refl.
    - (* OTouch *) destruct (rtake i s) as [[m s1]|] eqn:Q; [|discriminate]. destruct (touch path h m) as [[[h1 m1] b]|] eqn:Qt; [|discriminate].
      destruct (rput i m1 s1); [|discriminate]. injection H as <-. apply forced_untouched. eapply (touch_forced path h (static :: nodes_of s1)); [|exact Qt].
      eapply inv_perm; [|exact I]. rewrite (rtake_perm _ _ _ _ Q). apply perm_swap.
    - (* OSub *) destruct (rget i vs) as [t|] eqn:Qv; [|discriminate]. destruct (t_sub path t) as [u|] eqn:Hp; [|discriminate].
      destruct (rtake i s) as [[m s1]|] eqn:Q; [|discriminate].
      assert (Im : Inv h (m :: static :: nodes_of s1)) by (eapply inv_perm; [|exact I]; rewrite (rtake_perm _ _ _ _ Q); apply perm_swap).
      destruct (rget_rel h s vs i t R Qv) as (m' & Qm & D & _). unfold rtake in Q. rewrite Qm in Q. injection Q as -> <-.
      destruct (touch_inv path h _ m t u Im D Hp) as (h1 & m1 & b & rb & nb & Qt & I1 & _ & _ & Hb & _).
      pose proof (touch_forced path h _ m h1 m1 b Im Qt) as Fo. rewrite Qt, Hb in H. destruct (rput i m1 _) as [s2|]; [|discriminate].
      destruct (nth_error nb c) as [d|] eqn:Qd; [|discriminate].
      destruct (node_clone_inv h1 _ d I1) as (h2 & Qc & _ & G); [right; exists b, rb, nb; split; auto; eapply nth_error_In; eauto|].
      rewrite Qc in H. destruct (rput k d s2); [|discriminate]. injection H as <-. cbn [fst].
      eapply untouched_ext; [apply forced_untouched, Fo|now apply grows_ext].
    - (* OPrefix *) destruct (in_reg i _ h s) as [[[h1 s1] x]|] eqn:Q; [|discriminate]. injection H as <-. apply frame_untouched.
      eapply (in_reg_fr i _ [] h s vs); eauto; [apply mut_at_fr, act_prefix_fr|]. intros ->. apply N. now left.
    - (* OValue *) destruct (in_reg i _ h s) as [[[h1 s1] x]|] eqn:Q; [|discriminate]. injection H as <-. apply frame_untouched.
      eapply (in_reg_fr i _ [] h s vs); eauto; [apply mut_at_fr, act_value_fr|]. intros ->. apply N. now left.
    - (* OInsert *) destruct (rtake src vs) as [[tm v0]|] eqn:Qv; [|discriminate].
      destruct (rtake_rel h s vs src tm v0 R Qv) as (m & s0 & Qs & _ & R0 & P0). rewrite Qs in H.
      destruct (in_reg i _ h s0) as [[[h1 s1] x]|] eqn:Q; [|discriminate]. injection H as <-. apply frame_untouched.
      eapply (in_reg_fr i _ [m] h s0 v0); [| |exact R0|exact Q| |].
      + apply mut_at_fr, act_insert_fr.
      + eapply inv_perm; [|exact I]. now rewrite P0.
      + rewrite (rtake_other src j m s s0 Qs); [exact Hj|]. intros ->. apply N. right. now left.
      + intros ->. apply N. now left.
    - (* ORemove *) destruct (in_reg i _ h s) as [[[h1 s1] [m|]]|] eqn:Q; try discriminate. destruct (rput k m s1); [|discriminate]. injection H as <-.
      apply frame_untouched. eapply (in_reg_fr i _ [] h s vs); eauto; [apply mut_at_fr, act_remove_fr|]. intros ->. apply N. now left.
  Qed.

  Lemma yield_fr h C r t s j st l (n : node) : yield1 h C r t -> @into_reg K V r s j = Some (st, l) -> In n C -> untouched h (fst st) [n].
  Proof.
    intros (h1 & m & -> & _ & _ & F & _) H Hn. unfold into_reg in H. destruct (rput j m s); [|discriminate]. injection H as <- <-.
    apply frame_untouched. eapply frame_incl; [|exact F]. now apply one_incl.
  Qed.
  Lemma in_place_fr act pact i b h s vs vs' out F st l j n : good (h, s) vs -> fits F vs i -> fits F vs b ->
    (forall k, recok (pact k) (act F) F) ->
    p_in_place (fun x y => pact (S (t_size x + t_size y)) x y) i b vs = Some (vs', out) ->
    in_place (act F) i b (h, s) = Some (st, l) -> rget j s = Some n -> j <> i -> untouched h (fst st) [n].
  Proof.
    intros (I & Ds & R) Hf Hf2 Hr H Hs Hj N. unfold p_in_place in H. unfold in_place in Hs. cbn [fst snd] in *.
    destruct (rtake i vs) as [[x v1]|] eqn:Q; [|discriminate]. destruct (rget b v1) as [y|] eqn:Qb; [|discriminate].
    destruct (pact (S (t_size x + t_size y)) x y) as [x'| |] eqn:Qa; try discriminate.
    pose proof (Hf _ (rtake_get _ _ _ _ Q)) as E1. pose proof (Hf2 _ (rtake_get2 _ _ _ _ _ _ Q Qb)) as E2.
    destruct (rtake_rel h s vs i x v1 R Q) as (m & s1 & Qs & D & R1 & P1). rewrite Qs in Hs.
    destruct (rget_rel h s1 v1 b y R1 Qb) as (m2 & Qm & Dm & Im). rewrite Qm in Hs.
    assert (Y : yield1 h (static :: nodes_of s1) (act F h m m2) x').
    { eapply Hr; eauto.
      - eapply inv_perm; [|exact I]. rewrite P1. apply perm_swap.
      - split; auto. now left.
      - right. left. now right.
      - lia. }
    destruct Y as (h1 & m1 & Qy & _ & _ & Fr & _). rewrite Qy in Hs. destruct (rput i m1 s1); [|discriminate]. injection Hs as <- <-.
    apply frame_untouched. eapply frame_incl; [|exact Fr]. apply one_incl. right. apply (rget_nodes j). now rewrite (rtake_other i j m s s1 Qs).
  Qed.
  Lemma pure_into_fr act pact a b k h s vs vs' out F st l j n : good (h, s) vs -> fits F vs a -> fits F vs b ->
    (forall k, precok (pact k) (act F) F) ->
    p_into (fun x y => pact (S (t_size x + t_size y)) x y) a b k vs = Some (vs', out) ->
    pure_into (act F) a b k (h, s) = Some (st, l) -> rget j s = Some n -> untouched h (fst st) [n].
  Proof.
    intros (I & Ds & R) Hf Hf2 Hr H Hs Hj. unfold p_into in H. unfold pure_into in Hs. cbn [fst snd] in *.
    destruct (rget a vs) as [x|] eqn:Q; [|discriminate]. destruct (rget b vs) as [y|] eqn:Qb; [|discriminate].
    destruct (pact (S (t_size x + t_size y)) x y) as [x'| |] eqn:Qa; try discriminate.
    pose proof (Hf _ Q) as E1. pose proof (Hf2 _ Qb) as E2.
    destruct (rget_rel h s vs a x R Q) as (m & Qm & D & In1). destruct (rget_rel h s vs b y R Qb) as (m2 & Qm2 & Dm & Im). rewrite Qm, Qm2 in Hs.
    eapply (yield_fr h (static :: nodes_of s) _ x'); [|exact Hs|right; eapply rget_nodes; eauto]. eapply Hr; eauto.
    - split; auto. now left.
    - right. left. now right.
    - right. left. now right.
    - lia.
  Qed.
  Lemma astep_untouched o vs vs' out F h s st l j n : pstep kcmp strat o vs = Some (vs', out) -> (forall i, In i (anames o) -> fits F vs i) -> good (h, s) vs ->
    astep kcmp strat arc F o (h, s) = Some (st, l) -> rget j s = Some n -> ~ In j (anames o) -> untouched h (fst st) [n].
  Proof.
    intros H Hf G Hs Hj N. pose proof (good_St _ _ _ G) as S. pose proof G as (I & Ds & R). cbn [fst snd] in I, Ds, R.
    assert (Hn : In n (static :: nodes_of s)) by (right; eapply rget_nodes; eauto).
    destruct o as [o|k v i|i k v|i p|i p k|f i b|f i b|f i b|f i b|f i b|f a b k|f a b k|f a b k|i k|i|a b|a b]; cbn [pstep astep anames] in *.
    - destruct (vstep o vs) as [v1|] eqn:Q; [|discriminate]. destruct (hstep arc o (h, s)) as [st1|] eqn:Qs; [|discriminate]. injection Hs as <- <-.
      eapply hstep_untouched; eauto.
    - (* single *) destruct (n_new_ok arc k (Some v) [] [] h (static :: nodes_of s)) as (h1 & m & Q & I1 & D1 & X & M1); auto; [constructor|].
      eapply (yield_fr h (static :: nodes_of s)); [|exact Hs|exact Hn]. exists h1, m. split; auto. split; auto. split; [exact D1|]. split; auto. now apply frame_ext.
    - (* insert *) destruct (rtake i vs) as [[x v1]|] eqn:Q; [|discriminate]. destruct (rt_insert kcmp strat x k v) as [x'| |] eqn:Qa; try discriminate.
      pose proof (Hf i ltac:(now left) _ (rtake_get _ _ _ _ Q)) as E1.
      destruct (rtake_rel h s vs i x v1 R Q) as (m & s1 & Qs & D & R1 & P1). rewrite Qs in Hs.
      eapply (yield_fr h (static :: nodes_of s1) _ x'); [|exact Hs|].
      + eapply insert_yield; [| |exact D| |exact Qa].
        * eapply inv_perm; [|exact I]. rewrite P1. apply perm_swap.
        * split; auto. now left.
        * lia.
      + right. apply (rget_nodes j). rewrite (rtake_other i j m s s1 Qs); auto. intros ->. apply N. now left.
    - (* prepend *) destruct (rtake i s) as [[m s1]|]; [|discriminate]. destruct (h_prepend h m p) as [m1|]; [|discriminate]. unfold into_reg in Hs.
      destruct (rput i m1 s1); [|discriminate]. injection Hs as <- <-. apply frame_untouched, frame_refl.
    - (* filter *) destruct (rget i vs) as [x|] eqn:Q; [|discriminate]. destruct (rt_filter_prefix kcmp x p) as [x'| |] eqn:Qa; try discriminate.
      pose proof (Hf i ltac:(now left) _ Q) as E1. destruct (rget_rel h s vs i x R Q) as (m & Qm & D & In1). rewrite Qm in Hs.
      eapply (yield_fr h (static :: nodes_of s) _ x'); [|exact Hs|exact Hn]. eapply filter_refines; eauto; [right; left; now right|lia].
    - eapply (in_place_fr (h_outer kcmp strat arc f)); eauto; try (apply Hf; now left); try (apply Hf; right; now left); [apply outer_refines|intros ->; apply N; now left].
    - eapply (in_place_fr (h_inner kcmp strat arc f)); eauto; try (apply Hf; now left); try (apply Hf; right; now left); [apply inner_refines|intros ->; apply N; now left].
    - eapply (in_place_fr (h_left kcmp strat arc f)); eauto; try (apply Hf; now left); try (apply Hf; right; now left); [apply left_refines|intros ->; apply N; now left].
    - eapply (in_place_fr (h_remove kcmp strat arc f)); eauto; try (apply Hf; now left); try (apply Hf; right; now left); [apply remove_refines|intros ->; apply N; now left].
    - eapply (in_place_fr (h_retain kcmp strat arc f)); eauto; try (apply Hf; now left); try (apply Hf; right; now left); [apply retain_refines|intros ->; apply N; now left].
    - eapply (pure_into_fr (h_outer_pure kcmp strat arc f)); eauto; try (apply Hf; now left); try (apply Hf; right; now left). apply outer_pure_refines.
    - eapply (pure_into_fr (h_inner_pure kcmp strat arc f)); eauto; try (apply Hf; now left); try (apply Hf; right; now left). apply inner_pure_refines.
    - eapply (pure_into_fr (h_left_pure kcmp strat arc f)); eauto; try (apply Hf; now left); try (apply Hf; right; now left). apply left_pure_refines.
    - destruct (rget i s) as [m|]; [|discriminate]. destruct (h_get kcmp F h m k); [|discriminate]. injection Hs as <- <-. apply frame_untouched, frame_refl.
    - destruct (rget i s) as [m|]; [|discriminate]. unfold answer in Hs. destruct (h_iter F h m); try discriminate. injection Hs as <- <-. apply frame_untouched, frame_refl.
    - destruct (rget a s) as [m|]; [|discriminate]. destruct (rget b s) as [m2|]; [|discriminate]. unfold answer in Hs.
      destruct (h_intersects0 _ _ _ _ _ _ _ _); try discriminate. injection Hs as <- <-. apply frame_untouched, frame_refl.
    - destruct (rget a s) as [m|]; [|discriminate]. destruct (rget b s) as [m2|]; [|discriminate]. unfold answer in Hs.
      destruct (h_is_subset0 _ _ _ _ _ _ _ _); try discriminate. injection Hs as <- <-. apply frame_untouched, frame_refl.
  Qed.
End PersistFrame.

(** The register machine on the heap refines the one on plain trees. *)
From Coq Require Import Permutation.
From Verif Require Export RadixFacts HeapFacts.

Section Refine.
  Context {K V : Type} (arc : bool).
  Notation tree := (rtree K V).
  Notation node := (node K V).
  Notation heap := (heap K V).
  Implicit Types (h : heap) (ns : list node) (ts : list tree).

  Definition nodes_of (s : regs node) : list node := flat_map olist s.
  Definition static : node := MkN [] None (inr 0).
  Definition orel h (o : option node) (ot : option tree) : Prop :=
    match o, ot with Some n, Some t => den h n t | None, None => True | _, _ => False end.
  Definition rel h (s : regs node) (vs : regs tree) : Prop := Forall2 (orel h) s vs.
  (** everything that is preserved *)
  Definition good (st : state K V) (vs : regs tree) : Prop :=
    Inv (fst st) (static :: nodes_of (snd st)) /\ den (fst st) static (Node [] None []) /\ rel (fst st) (snd st) vs.

  Lemma rel_nth h s vs i : rel h s vs ->
    match nth_error s i, nth_error vs i with Some o, Some ot => orel h o ot | None, None => True | _, _ => False end.
  Proof. intros R. revert i. induction R; intros [|i]; simpl; auto. apply IHR. Qed.
  Lemma rel_upd h s vs i o ot : rel h s vs -> orel h o ot -> rel h (upd_nth i o s) (upd_nth i ot vs).
  Proof.
    intros R O. revert i. induction R as [|x y l l' A R IH]; intros [|i]; cbn; try (constructor; auto; constructor; fail).
    constructor; auto. apply (IH i).
  Qed.
  Lemma nodes_app s s' : nodes_of (s ++ s') = nodes_of s ++ nodes_of s'.
  Proof. apply flat_map_app. Qed.
  Lemma nodes_upd_put s i n : nth_error s i = Some None -> Permutation (nodes_of (upd_nth i (Some n) s)) (n :: nodes_of s).
  Proof.
    intros H. unfold upd_nth. rewrite (nth_split3 s i None H) at 3. rewrite !nodes_app. cbn. apply Permutation_sym, Permutation_middle.
  Qed.
  Lemma nodes_upd_take s i n : nth_error s i = Some (Some n) -> Permutation (nodes_of s) (n :: nodes_of (upd_nth i None s)).
  Proof.
    intros H. unfold upd_nth. rewrite (nth_split3 s i (Some n) H) at 1. rewrite !nodes_app. cbn. apply Permutation_sym, Permutation_middle.
  Qed.

  Lemma rput_rel h s vs j n t vs' : rel h s vs -> den h n t -> rput j t vs = Some vs' ->
    exists s', rput j n s = Some s' /\ rel h s' vs' /\ Permutation (nodes_of s') (n :: nodes_of s).
  Proof.
    unfold rput. intros R D H. pose proof (rel_nth h s vs j R) as N.
    destruct (nth_error vs j) as [[?|]|]; try discriminate. injection H as <-.
    destruct (nth_error s j) as [[?|]|] eqn:Q; try easy. eexists. split; [reflexivity|].
    split; [now apply rel_upd|now apply nodes_upd_put].
  Qed.
  Lemma rget_rel h s vs i t : rel h s vs -> rget i vs = Some t ->
    exists n, rget i s = Some n /\ den h n t /\ In n (nodes_of s).
  Proof.
    unfold rget. intros R H. pose proof (rel_nth h s vs i R) as N.
    destruct (nth_error vs i) as [[?|]|]; try discriminate. injection H as ->.
    destruct (nth_error s i) as [[n|]|] eqn:Q; try easy. exists n. split; auto. split; auto.
    apply in_flat_map. exists (Some n). split; [eapply nth_error_In; eauto|simpl; auto].
  Qed.
  Lemma rtake_rel h s vs i t vs' : rel h s vs -> rtake i vs = Some (t, vs') ->
    exists n s', rtake i s = Some (n, s') /\ den h n t /\ rel h s' vs' /\ Permutation (nodes_of s) (n :: nodes_of s').
  Proof.
    unfold rtake. intros R H. destruct (rget i vs) as [t'|] eqn:Q; [|discriminate]. injection H as -> <-.
    destruct (rget_rel h s vs i t R Q) as (n & Qn & D & _). rewrite Qn. eexists _, _. split; [reflexivity|]. split; auto.
    split; [apply rel_upd; auto; exact Logic.I|]. apply nodes_upd_take. unfold rget in Qn. now destruct (nth_error s i) as [[?|]|]; inversion Qn.
  Qed.
  Lemma rtakes_rel h l : forall s vs ts vs', rel h s vs -> rtakes l vs = Some (ts, vs') ->
    exists ns s', rtakes l s = Some (ns, s') /\ dens h ns ts /\ rel h s' vs' /\ Permutation (nodes_of s) (ns ++ nodes_of s').
  Proof.
    induction l as [|i l IH]; intros s vs ts vs' R H; cbn [rtakes] in *.
    - injection H as <- <-. exists [], s. repeat split; auto. constructor.
    - destruct (rtake i vs) as [[t v1]|] eqn:Q; [|discriminate]. destruct (rtakes l v1) as [[us v2]|] eqn:Q2; [|discriminate].
      injection H as <- <-. destruct (rtake_rel h s vs i t v1 R Q) as (n & s1 & -> & D & R1 & P1).
      destruct (IH s1 v1 us v2 R1 Q2) as (ns & s2 & -> & Ds & R2 & P2). exists (n :: ns), s2. split; auto. split; [now constructor|]. split; auto.
      rewrite P1. simpl. now apply perm_skip.
  Qed.
  Lemma rel_pres h h' s vs : pres h h' (nodes_of s) -> rel h s vs -> rel h' s vs.
  Proof.
    intros P R. induction R as [|o ot s vs O R IH]; constructor.
    - destruct o as [n|], ot as [t|]; simpl in *; auto. apply P; auto. now left.
    - apply IH. eapply pres_incl; [|exact P]. intros m Hm. cbn. apply in_or_app. now right.
  Qed.
  Lemma take_put {X} i (x : X) s : rget i s = Some x -> rput i x (upd_nth i None s) = Some s.
  Proof.
    unfold rget, rput. destruct (nth_error s i) as [[y|]|] eqn:Q; try discriminate. intros [= ->].
    rewrite (nth_upd_same s i (Some x)) by auto. f_equal. unfold upd_nth.
    assert (L : i < length s) by (apply nth_error_Some; congruence).
    rewrite firstn_app, firstn_firstn, Nat.min_id, skipn_app, firstn_length, Nat.min_l, Nat.sub_diag by lia.
    replace (S i - i) with 1 by lia. simpl firstn at 2. rewrite app_nil_r.
    rewrite skipn_all2 by (rewrite firstn_length; lia). simpl. symmetry. now apply (nth_split3 s i (Some x)).
  Qed.

  Lemma tmut_out path (pact : tree -> option (tree * option tree)) : (forall t t' x, pact t = Some (t', x) -> x = None) ->
    forall (t : tree) t' x, tmut path pact t = Some (t', x) -> x = None.
  Proof.
    intros A. induction path as [|i path IH]; intros [p v ts] t' x; simpl; [apply A|].
    destruct (nth_error ts i) as [c|]; [|discriminate]. destruct (tmut path pact c) as [[c' y]|] eqn:Q; [|discriminate].
    intros [= _ <-]. eauto.
  Qed.
  Lemma vreg_out i path (pact : tree -> option (tree * option tree)) vs vs' x : (forall t t' x, pact t = Some (t', x) -> x = None) ->
    vreg i (tmut path pact) vs = Some (vs', x) -> x = None.
  Proof.
    intros A. unfold vreg. destruct (rtake i vs) as [[t v1]|]; [|discriminate].
    destruct (tmut path pact t) as [[t' y]|] eqn:Q; [|discriminate]. destruct (rput i t' v1); [|discriminate].
    intros [= _ <-]. eapply tmut_out; eauto.
  Qed.
  Lemma no_out h nout : dens h (olist nout) (@olist tree None) -> nout = None.
  Proof. destruct nout; auto. intros H. inversion H. Qed.

  (** a mutation in a register *)
  Lemma in_reg_good i act pact inp tin h s vs vs' x :
    act_ok inp tin act pact -> Inv h (static :: inp ++ nodes_of s) -> den h static (Node [] None []) -> dens h inp tin -> rel h s vs ->
    vreg i pact vs = Some (vs', x) ->
    exists h' s' nout, in_reg i act h s = Some (h', s', nout) /\
      Inv h' (static :: olist nout ++ nodes_of s') /\ den h' static (Node [] None []) /\ dens h' (olist nout) (olist x) /\ rel h' s' vs'.
  Proof.
    intros A I Ds Di R H. unfold vreg in H. destruct (rtake i vs) as [[t v1]|] eqn:Q; [|discriminate].
    destruct (pact t) as [[t' x']|] eqn:Qp; [|discriminate]. destruct (rput i t' v1) as [v2|] eqn:Q2; [|discriminate]. injection H as <- <-.
    unfold in_reg. destruct (rtake_rel h s vs i t v1 R Q) as (n & s1 & -> & D & R1 & P1).
    assert (I' : Inv h (n :: inp ++ (static :: nodes_of s1))).
    { eapply inv_perm; [|exact I]. rewrite P1. etransitivity; [apply perm_skip, Permutation_sym, Permutation_middle|].
      etransitivity; [apply perm_swap|]. apply perm_skip, Permutation_middle. }
    destruct (A _ h n t t' x' I' D Di Qp) as (h1 & n1 & nout & -> & I1 & D1 & Do & P & _).
    assert (R2 : rel h1 s1 v1) by (eapply rel_pres; [|exact R1]; eapply pres_incl; [|exact P]; intros y Hy; now right).
    destruct (rput_rel h1 s1 v1 i n1 t' v2 R2 D1 Q2) as (s2 & -> & R3 & P2). exists h1, s2, nout. split; auto.
    split; [|split; [apply P; simpl; auto|auto]].
    eapply inv_perm; [|exact I1]. rewrite P2. etransitivity; [apply perm_skip, Permutation_sym, Permutation_middle|].
    etransitivity; [apply perm_swap|]. apply perm_skip, Permutation_middle.
  Qed.

  Lemma alloc_inv h ns C p v ts : Inv h (ns ++ C) -> dens h ns ts ->
    exists h1 a, arc_new h ns = (h1, a) /\ Inv h1 (MkN p v (inr a) :: C) /\ extends h h1 /\ den h1 (MkN p v (inr a)) (Node p v ts).
  Proof.
    intros I D. destruct (arc_new h ns) as [h1 a] eqn:Qa. exists h1, a. split; auto.
    destruct (new_inv h ns _ p v h1 a I Qa) as (I1 & G & Hc & _). pose proof (grows_ext _ _ G) as X. split; auto. split; auto.
    econstructor; eauto. now apply (den_ext h h1 X).
  Qed.
  Lemma wrap_inv h ns C p v ts : Inv h (ns ++ static :: C) -> den h static (Node [] None []) -> dens h ns ts ->
    exists h1 a, wrap arc h ns = Some (h1, a) /\ Inv h1 (MkN p v (inr a) :: static :: C) /\ extends h h1 /\
                 den h1 (MkN p v (inr a)) (Node p v ts).
  Proof.
    intros I Ds Dn. destruct (alloc_inv h ns _ p v ts I Dn) as (h1 & a & Qa & F). unfold wrap. destruct arc; [destruct ns as [|n ns]|].
    - cbn [app] in I. destruct (arc_clone_inv h _ 0 p v I) as (h2 & -> & I1 & G); [rewrite cnt_cons; change (ref 0 static) with 1; lia|].
      pose proof (grows_ext _ _ G) as X. exists h2, 0. split; auto. split; auto. split; auto.
      inversion Dn; subst. apply (den_ext h h2 X) in Ds. inversion Ds; subst. econstructor; eauto.
    - rewrite Qa. eauto.
    - rewrite Qa. eauto.
  Qed.
  Lemma of_tree_inv w t : forall h C, Inv h (static :: C) -> den h static (Node [] None []) ->
    exists h1 n, of_tree arc w h t = Some (h1, n) /\ Inv h1 (n :: static :: C) /\ extends h h1 /\ den h1 n t.
  Proof.
    induction t as [p v ts IH] using rtree_ind'. intros h C I Ds. cbn [of_tree].
    match goal with |- context [match ?g h ts with _ => _ end] => set (go := g) end.
    assert (G : forall h C, Inv h (static :: C) -> den h static (Node [] None []) ->
      exists h1 ns, go h ts = Some (h1, ns) /\ Inv h1 (ns ++ static :: C) /\ extends h h1 /\ dens h1 ns ts).
    { clear h C I Ds. induction IH as [|t ts Ht _ IH]; intros h C I Ds.
      - exists h, []. split; auto. split; auto. split; [apply extends_refl|constructor].
      - destruct (Ht h C I Ds) as (h1 & n & Q1 & I1 & X1 & D1). cbn [go] in *. rewrite Q1.
        destruct (IH h1 (n :: C)) as (h2 & ns & Q2 & I2 & X2 & D2); [eapply inv_perm; [|exact I1]; apply perm_swap|now apply (den_ext h h1 X1)|].
        rewrite Q2. exists h2, (n :: ns). split; auto. split; [|split; [eapply extends_trans; eauto|constructor; auto; now apply (den_ext h1 h2 X2)]].
        eapply inv_perm; [|exact I2]. simpl. etransitivity; [apply Permutation_app_head, perm_swap|]. apply Permutation_sym, Permutation_middle. }
    destruct (G h C I Ds) as (h1 & ns & -> & I1 & X1 & D1). apply (den_ext h h1 X1) in Ds.
    assert (W : exists h2 a, (if w then wrap arc h1 ns else Some (arc_new h1 ns)) = Some (h2, a) /\ Inv h2 (MkN p v (inr a) :: static :: C) /\
                  extends h1 h2 /\ den h2 (MkN p v (inr a)) (Node p v ts)).
    { destruct w; [now apply wrap_inv|]. destruct (alloc_inv h1 ns _ p v ts I1 D1) as (h2 & a & -> & F). eauto. }
    destruct W as (h2 & a & -> & I2 & X2 & D2). exists h2, (MkN p v (inr a)). split; auto. split; auto. split; auto. eapply extends_trans; eauto.
  Qed.

  Lemma step_good o st vs vs' : good st vs -> vstep o vs = Some vs' -> exists st', hstep arc o st = Some st' /\ good st' vs'.
  Proof.
    destruct st as [h s]. intros (I & Ds & R) H. cbn [fst snd] in *. unfold good.
    destruct o; cbn [vstep hstep] in *.
    - (* OEmpty *) unfold mk_empty. destruct arc.
      + destruct (arc_clone_inv h _ 0 [] None I) as (h1 & -> & I1 & G); [rewrite cnt_cons; change (ref 0 static) with 1; lia|].
        pose proof (grows_ext _ _ G) as X. apply (den_ext h h1 X) in Ds.
        assert (R1 : rel h1 s vs) by (eapply rel_pres; [apply pres_ext; eauto|auto]).
        destruct (rput_rel h1 s vs j (MkN [] None (inr 0)) _ vs' R1 Ds H) as (s1 & -> & R2 & P).
        eexists. split; [reflexivity|]. split; [|split; auto]. eapply inv_perm; [|exact I1]. cbn [snd]. rewrite P. apply perm_swap.
      + destruct (rput_rel h s vs j (MkN [] None (inl [])) _ vs' R (den_archive _ _ _ _) H) as (s1 & -> & R2 & P).
        eexists. split; [reflexivity|]. split; [|split; auto]. cbn [fst snd]. eapply inv_perm; [rewrite P; apply perm_swap|]. now apply inv_inl.
    - (* ONew *) destruct (rtakes src vs) as [[ts v1]|] eqn:Q; [|discriminate].
      destruct (rtakes_rel h src s vs ts v1 R Q) as (ns & s1 & -> & Dn & R1 & P1).
      assert (W : exists h1 a, wrap arc h ns = Some (h1, a) /\ Inv h1 (MkN p v (inr a) :: static :: nodes_of s1) /\ extends h h1 /\
                    den h1 (MkN p v (inr a)) (Node p v ts)).
      { apply wrap_inv; auto. eapply inv_perm; [|exact I]. rewrite P1. apply Permutation_middle. }
      destruct W as (h1 & a & -> & I1 & X & D1).
      assert (R2 : rel h1 s1 v1) by (eapply rel_pres; [apply pres_ext; eauto|auto]).
      destruct (rput_rel h1 s1 v1 j _ _ vs' R2 D1 H) as (s2 & -> & R3 & P2). eexists. split; [reflexivity|]. cbn [fst snd].
      split; [|split; auto]. { eapply inv_perm; [|exact I1]. rewrite P2. apply perm_swap. } now apply (den_ext h h1 X).
    - (* OFrom *) destruct (of_tree_inv w t h _ I Ds) as (h1 & n & -> & I1 & X & D1).
      assert (R2 : rel h1 s vs) by (eapply rel_pres; [apply pres_ext; eauto|auto]).
      destruct (rput_rel h1 s vs j _ _ vs' R2 D1 H) as (s2 & -> & R3 & P2). eexists. split; [reflexivity|]. cbn [fst snd].
      split; [|split; auto]. { eapply inv_perm; [|exact I1]. rewrite P2. apply perm_swap. } now apply (den_ext h h1 X).
    - (* OArchive *) destruct t as [p v ts]. cbn [shallow].
      destruct (rput_rel h s vs j (MkN p v (inl ts)) _ vs' R (den_archive _ _ _ _) H) as (s1 & -> & R2 & P).
      eexists. split; [reflexivity|]. split; [|split; auto]. cbn [fst snd]. eapply inv_perm; [rewrite P; apply perm_swap|]. now apply inv_inl.
    - (* OClone *) destruct (rget i vs) as [t|] eqn:Q; [|discriminate]. destruct (rget_rel h s vs i t R Q) as (n & -> & D & Hin).
      destruct (node_clone_inv h _ n I) as (h1 & -> & I1 & G); [left; now right|]. pose proof (grows_ext _ _ G) as X.
      assert (R1 : rel h1 s vs) by (eapply rel_pres; [apply pres_ext; eauto|auto]).
      destruct (rput_rel h1 s vs j n t vs' R1) as (s1 & -> & R2 & P); auto; [now apply (den_ext h h1 X)|].
      eexists. split; [reflexivity|]. cbn [fst snd]. split; [|split; auto; now apply (den_ext h h1 X)]. eapply inv_perm; [|exact I1]. rewrite P. apply perm_swap.
    - (* ODrop *) destruct (rtake i vs) as [[t v1]|] eqn:Q; [|discriminate]. injection H as <-.
      destruct (rtake_rel h s vs i t v1 R Q) as (n & s1 & -> & D & R1 & P1).
      destruct (drop_all_inv h [n] (static :: nodes_of s1)) as (h1 & -> & I1 & P).
      { cbn [app]. eapply inv_perm; [|exact I]. rewrite P1. apply perm_swap. }
      eexists. split; [reflexivity|]. cbn [fst snd]. split; auto. split; [apply P; simpl; auto|]. eapply rel_pres; [|exact R1].
      eapply pres_incl; [|exact P]. intros y Hy. now right.
    - (* OMove *) destruct (rtake i vs) as [[t v1]|] eqn:Q; [|discriminate].
      destruct (rtake_rel h s vs i t v1 R Q) as (n & s1 & -> & D & R1 & P1).
      destruct (rput_rel h s1 v1 j n t vs' R1 D H) as (s2 & -> & R2 & P2). eexists. split; [reflexivity|]. cbn [fst snd].
      split; [|split; auto]. eapply inv_perm; [|exact I]. now rewrite P1, P2.
    - (* OTouch *) destruct (rget i vs) as [t|] eqn:Q; [|discriminate]. destruct (t_sub path t) as [u|] eqn:Hp; [|discriminate]. injection H as <-.
      assert (Q1 : rtake i vs = Some (t, upd_nth i None vs)) by (unfold rtake; now rewrite Q).
      destruct (rtake_rel h s vs i t _ R Q1) as (n & s1 & -> & D & R1 & P1).
      destruct (touch_inv path h (static :: nodes_of s1) n t u) as (h1 & n1 & b & rb & nb & -> & I1 & D1 & P & _); auto.
      { eapply inv_perm; [|exact I]. rewrite P1. apply perm_swap. }
      assert (R2 : rel h1 s1 (upd_nth i None vs)) by (eapply rel_pres; [|exact R1]; eapply pres_incl; [|exact P]; intros y Hy; now right).
      destruct (rput_rel h1 s1 _ i n1 t vs R2 D1 (take_put i t vs Q)) as (s2 & -> & R3 & P2).
      eexists. split; [reflexivity|]. cbn [fst snd]. split; [|split; [apply P; simpl; auto|auto]]. eapply inv_perm; [|exact I1]. rewrite P2. apply perm_swap.
    - (* OSub *) destruct (rget i vs) as [t|] eqn:Q; [|discriminate]. destruct (t_sub path t) as [u|] eqn:Hp; [|discriminate].
      destruct (nth_error (t_children u) k) as [tc|] eqn:Hk; [|discriminate].
      assert (Q1 : rtake i vs = Some (t, upd_nth i None vs)) by (unfold rtake; now rewrite Q).
      destruct (rtake_rel h s vs i t _ R Q1) as (n & s1 & -> & D & R1 & P1).
      destruct (touch_inv path h (static :: nodes_of s1) n t u) as (h1 & n1 & b & rb & nb & -> & I1 & D1 & P & Hb & Db); auto.
      { eapply inv_perm; [|exact I]. rewrite P1. apply perm_swap. }
      assert (R2 : rel h1 s1 (upd_nth i None vs)) by (eapply rel_pres; [|exact R1]; eapply pres_incl; [|exact P]; intros y Hy; now right).
      destruct (rput_rel h1 s1 _ i n1 t vs R2 D1 (take_put i t vs Q)) as (s2 & -> & R3 & P2). rewrite Hb.
      pose proof (dens_nth h1 nb _ k Db) as Hc. rewrite Hk in Hc. destruct (nth_error nb k) as [c|] eqn:Hn; [|easy].
      assert (I2 : Inv h1 (static :: nodes_of s2)) by (eapply inv_perm; [|exact I1]; rewrite P2; apply perm_swap).
      destruct (node_clone_inv h1 _ c I2) as (h2 & -> & I3 & G); [right; exists b, rb, nb; split; auto; eapply nth_error_In; eauto|].
      pose proof (grows_ext _ _ G) as X.
      assert (R4 : rel h2 s2 vs) by (eapply rel_pres; [apply pres_ext; eauto|auto]).
      destruct (rput_rel h2 s2 vs j c tc vs' R4) as (s3 & -> & R5 & P3); auto; [now apply (den_ext h1 h2 X)|].
      eexists. split; [reflexivity|]. cbn [fst snd]. split; [|split; auto; apply (den_ext h1 h2 X), P; simpl; auto].
      eapply inv_perm; [|exact I3]. rewrite P3. apply perm_swap.
    - (* OPrefix *) destruct (vreg i (tmut path (t_set_prefix p)) vs) as [[v1 x]|] eqn:Q; [|discriminate]. injection H as <-.
      destruct (in_reg_good i _ _ [] [] h s vs v1 x (mut_at_ok _ _ _ _ path (act_prefix_ok p)) I Ds (dens_nil _) R Q) as (h1 & s1 & nout & -> & I1 & D1 & Do & R1).
      assert (x = None) as -> by (eapply vreg_out; [|exact Q]; now intros [? ? ?] ? ? [= _ <-]).
      apply no_out in Do as ->. eexists. split; [reflexivity|]. cbn [fst snd]. split; auto.
    - (* OValue *) destruct (vreg i (tmut path (t_set_value v)) vs) as [[v1 x]|] eqn:Q; [|discriminate]. injection H as <-.
      destruct (in_reg_good i _ _ [] [] h s vs v1 x (mut_at_ok _ _ _ _ path (act_value_ok v)) I Ds (dens_nil _) R Q) as (h1 & s1 & nout & -> & I1 & D1 & Do & R1).
      assert (x = None) as -> by (eapply vreg_out; [|exact Q]; now intros [? ? ?] ? ? [= _ <-]).
      apply no_out in Do as ->. eexists. split; [reflexivity|]. cbn [fst snd]. split; auto.
    - (* OInsert *) destruct (rtake src vs) as [[m v0]|] eqn:Q0; [|discriminate].
      destruct (rtake_rel h s vs src m v0 R Q0) as (n & s0 & -> & D & R0 & P0).
      destruct (vreg i (tmut path (t_insert pos m)) v0) as [[v1 x]|] eqn:Q; [|discriminate]. injection H as <-.
      assert (I0 : Inv h (static :: [n] ++ nodes_of s0)) by (eapply inv_perm; [|exact I]; now rewrite P0).
      destruct (in_reg_good i _ _ [n] [m] h s0 v0 v1 x (mut_at_ok _ _ _ _ path (act_insert_ok pos n m)) I0 Ds) as (h1 & s1 & nout & -> & I1 & D1 & Do & R1); auto.
      { constructor; auto. constructor. }
      assert (x = None) as ->.
      { eapply vreg_out; [|exact Q]. intros [? ? ?] ? ?. simpl. destruct (_ <=? _); [|discriminate]. now intros [= _ <-]. }
      apply no_out in Do as ->. eexists. split; [reflexivity|]. cbn [fst snd]. split; auto.
    - (* ORemove *) destruct (vreg i (tmut path (t_remove pos)) vs) as [[v1 [m|]]|] eqn:Q; try discriminate.
      destruct (in_reg_good i _ _ [] [] h s vs v1 (Some m) (mut_at_ok _ _ _ _ path (act_remove_ok pos)) I Ds (dens_nil _) R Q) as (h1 & s1 & nout & -> & I1 & D1 & Do & R1).
      destruct nout as [n|]; [|inversion Do]. cbn [olist] in Do. inversion Do; subst.
      destruct (rput_rel h1 s1 v1 j n m vs' R1) as (s2 & -> & R2 & P2); auto.
      eexists. split; [reflexivity|]. cbn [fst snd]. split; auto. eapply inv_perm; [|exact I1]. now rewrite P2.
  Qed.

  Lemma repeat_nodes n : nodes_of (repeat None n) = [].
  Proof. induction n; auto. Qed.
  Lemma repeat_rel h n : rel h (repeat None n) (repeat None n).
  Proof. induction n; constructor; auto. exact Logic.I. Qed.
  Lemma init_good n : good (hinit n) (repeat None n).
  Proof.
    unfold good, hinit. cbn [fst snd]. rewrite repeat_nodes. split; [|split; [|apply repeat_rel]].
    - constructor; cbn [h_next h_cell].
      + intros [|b] Hb; [lia|reflexivity].
      + intros [|a]; cbn; auto.
      + intros [|a] rc ns; cbn; [|discriminate]. intros [= _ <-]. exists []. constructor.
    - econstructor; [reflexivity|constructor].
  Qed.
  Lemma run_good os : forall st vs vs', good st vs -> vrun os vs = Some vs' -> exists st', hrun arc os st = Some st' /\ good st' vs'.
  Proof.
    induction os as [|o os IH]; intros st vs vs' G H; cbn [vrun hrun] in *.
    - injection H as <-. eauto.
    - destruct (vstep o vs) as [v1|] eqn:Q; [|discriminate]. destruct (step_good o st vs v1 G Q) as (s1 & -> & G1). eauto.
  Qed.
  Lemma good_holds st vs i t : good st vs -> (holds_tree st i t <-> rget i vs = Some t).
  Proof.
    intros (I & Ds & R). unfold holds_tree. split.
    - intros (n & Q & D). unfold rget in *. pose proof (rel_nth _ _ _ i R) as N.
      destruct (nth_error (snd st) i) as [[m|]|]; try discriminate. injection Q as ->.
      destruct (nth_error vs i) as [[u|]|]; simpl in N; try easy. f_equal. eapply (proj1 (den_fun _)); eauto.
    - intros Q. destruct (rget_rel _ _ _ i t R Q) as (n & Qn & D & _). eauto.
  Qed.

  (** what an operation leaves alone *)
  Lemma rput_other {X} i j (x : X) s s' : rput i x s = Some s' -> j <> i -> rget j s' = rget j s.
  Proof.
    unfold rput, rget. destruct (nth_error s i) as [[?|]|] eqn:Q; try discriminate. intros [= <-] N.
    rewrite nth_upd_other; auto. apply nth_error_Some. congruence.
  Qed.
  Lemma rtake_other {X} i j (x : X) s s' : rtake i s = Some (x, s') -> j <> i -> rget j s' = rget j s.
  Proof.
    unfold rtake, rget. destruct (nth_error s i) as [[?|]|] eqn:Q; try discriminate. intros [= _ <-] N.
    rewrite nth_upd_other; auto. apply nth_error_Some. congruence.
  Qed.
  Lemma rtakes_other {X} l j : forall (s s' : regs X) xs, rtakes l s = Some (xs, s') -> ~ In j l -> rget j s' = rget j s.
  Proof.
    induction l as [|i l IH]; intros s s' xs H N; cbn [rtakes] in H; [now injection H as _ <-|].
    destruct (rtake i s) as [[x s1]|] eqn:Q; [|discriminate]. destruct (rtakes l s1) as [[ys s2]|] eqn:Q2; [|discriminate].
    injection H as _ <-. rewrite (IH _ _ _ Q2) by (intros Hi; apply N; now right).
    eapply rtake_other; eauto. intros ->. apply N. now left.
  Qed.
  Lemma vreg_other i j pact (vs vs' : regs tree) x : vreg i pact vs = Some (vs', x) -> j <> i -> rget j vs' = rget j vs.
  Proof.
    unfold vreg. destruct (rtake i vs) as [[t s1]|] eqn:Q; [|discriminate]. destruct (pact t) as [[t' y]|]; [|discriminate].
    destruct (rput i t' s1) as [s2|] eqn:Q2; [|discriminate]. intros [= <- _] N.
    rewrite (rput_other _ _ _ _ _ Q2 N). eapply rtake_other; eauto.
  Qed.
  Lemma vstep_frame (o : op K V) vs vs' j : vstep o vs = Some vs' -> ~ In j (changes o) -> rget j vs' = rget j vs.
  Proof.
    intros H N. destruct o as [k|p v src k|w t k|t k|i k|i|i k|i path|i path c k|i path p|i path v|i path pos src|i path pos k]; cbn [vstep changes names] in *.
    - eapply rput_other; eauto. intros ->. apply N. now left.
    - destruct (rtakes src vs) as [[ts v1]|] eqn:Q; [|discriminate].
      rewrite (rput_other _ j _ _ _ H) by (intros ->; apply N; now left).
      eapply rtakes_other; eauto. intros Hj. apply N. now right.
    - eapply rput_other; eauto. intros ->. apply N. now left.
    - eapply rput_other; eauto. intros ->. apply N. now left.
    - destruct (rget i vs); [|discriminate]. eapply rput_other; eauto. intros ->. apply N. now left.
    - destruct (rtake i vs) as [[t v1]|] eqn:Q; [|discriminate]. injection H as <-. eapply rtake_other; eauto. intros ->. apply N. now left.
    - destruct (rtake i vs) as [[t v1]|] eqn:Q; [|discriminate].
      rewrite (rput_other _ j _ _ _ H) by (intros ->; apply N; right; now left).
      eapply rtake_other; eauto. intros ->. apply N. now left.
    - destruct (rget i vs) as [t|]; [|discriminate]. destruct (t_sub path t); [|discriminate]. now injection H as <-.
    - destruct (rget i vs) as [t|]; [|discriminate]. destruct (t_sub path t) as [u|]; [|discriminate].
      destruct (nth_error (t_children u) c); [|discriminate]. eapply rput_other; eauto. intros ->. apply N. now left.
    - destruct (vreg _ _ vs) as [[v1 x]|] eqn:Q; [|discriminate]. injection H as <-. eapply vreg_other; eauto. intros ->. apply N. now left.
    - destruct (vreg _ _ vs) as [[v1 x]|] eqn:Q; [|discriminate]. injection H as <-. eapply vreg_other; eauto. intros ->. apply N. now left.
    - destruct (rtake src vs) as [[t v1]|] eqn:Q; [|discriminate]. destruct (vreg _ _ v1) as [[v2 x]|] eqn:Q2; [|discriminate]. injection H as <-.
      rewrite (vreg_other _ j _ _ _ _ Q2) by (intros ->; apply N; now left). eapply rtake_other; eauto. intros ->. apply N. right. now left.
    - destruct (vreg _ _ vs) as [[v1 [m|]]|] eqn:Q; try discriminate.
      rewrite (rput_other _ j _ _ _ H) by (intros ->; apply N; right; now left).
      eapply vreg_other; eauto. intros ->. apply N. now left.
  Qed.
  Lemma vrun_frame (os : list (op K V)) j : (forall o, In o os -> ~ In j (changes o)) ->
    forall vs vs', vrun os vs = Some vs' -> rget j vs' = rget j vs.
  Proof.
    induction os as [|o os IH]; intros N vs vs' H; cbn [vrun] in H; [now injection H as <-|].
    destruct (vstep o vs) as [v1|] eqn:Q; [|discriminate].
    rewrite (IH (fun o' Ho => N o' (or_intror Ho)) _ _ H). eapply vstep_frame; eauto. apply N. now left.
  Qed.

  (** ** No leaks: every live vector is reachable *)
  Fixpoint tsize (t : tree) : nat := let 'Node _ _ ts := t in S (list_sum (map tsize ts)).
  Definition tsizes ts : nat := list_sum (map tsize ts).
  Lemma sizes_bound h C : Inv h C -> exists B, forall a rc ns ts, h_cell h a = Some (rc, ns) -> dens h ns ts -> tsizes ts <= B.
  Proof.
    intros I.
    assert (G : forall n, exists B, forall a rc ns ts, a < n -> h_cell h a = Some (rc, ns) -> dens h ns ts -> tsizes ts <= B).
    { induction n as [|n [B IH]]; [exists 0; lia|]. destruct (h_cell h n) as [[rc0 ns0]|] eqn:Q.
      - destruct (inv_den _ _ I _ _ _ Q) as (ts0 & D0). exists (B + tsizes ts0). intros a rc ns ts Ha Hc D.
        destruct (Nat.eq_dec a n) as [->|Na].
        + rewrite Q in Hc. injection Hc as <- <-. rewrite (proj2 (den_fun h) _ _ D _ D0). lia.
        + assert (tsizes ts <= B) by (apply (IH a rc ns ts); auto; lia). lia.
      - exists B. intros a rc ns ts Ha Hc D. destruct (Nat.eq_dec a n) as [->|Na]; [congruence|]. apply (IH a rc ns ts); auto; lia. }
    destruct (G (h_next h)) as (B & HB). exists B. intros a rc ns ts Hc D. apply (HB a rc ns ts); auto.
    destruct (Nat.lt_ge_cases a (h_next h)) as [L|L]; auto. rewrite (inv_bound _ _ I a L) in Hc. discriminate.
  Qed.
  Lemma dens_in h ns ts m : dens h ns ts -> In m ns -> exists t, den h m t /\ tsize t <= tsizes ts.
  Proof.
    induction 1 as [|n t ns ts D Ds IH]; intros Hm; [easy|]. unfold tsizes. simpl. destruct Hm as [->|Hm].
    - exists t. split; auto. lia.
    - destruct (IH Hm) as (u & Du & L). exists u. split; auto. unfold tsizes in L. lia.
  Qed.
  Lemma cnt_pos_in a l : 0 < cnt a l -> exists n : node, In n l /\ n_kids n = inr a.
  Proof.
    induction l as [|n l IH]; [cbn; lia|]. rewrite cnt_cons. intros H. destruct (Nat.eq_dec (ref a n) 0) as [Z|Z].
    - destruct IH as (m & Hm & Q); [lia|]. exists m. split; auto. now right.
    - exists n. split; [now left|]. unfold ref in Z. destruct (n_kids n) as [?|b]; [lia|].
      destruct (Nat.eqb_spec b a); [now subst|lia].
  Qed.
  Lemma reach_snoc h n a rc ns m b : reach h n a -> h_cell h a = Some (rc, ns) -> In m ns -> n_kids m = inr b -> reach h n b.
  Proof.
    induction 1 as [n a Q|n a rc' ns' m' c Q Hc Hm R IH]; intros Ha Hi Hk.
    - apply (reach_below h n a rc ns m b); auto. now constructor.
    - apply (reach_below h n a rc' ns' m' b); auto.
  Qed.
  Lemma live_reach h C : Inv h C -> forall a rc ns, h_cell h a = Some (rc, ns) -> exists n, In n C /\ reach h n a.
  Proof.
    intros I. destruct (sizes_bound h C I) as (B & HB).
    assert (G : forall k a rc ns ts, h_cell h a = Some (rc, ns) -> dens h ns ts -> B - tsizes ts < k -> exists n, In n C /\ reach h n a).
    { induction k as [|k IH]; [lia|]. intros a rc ns ts Ha D L. pose proof (inv_count _ _ I a) as Hc. rewrite Ha in Hc. destruct Hc as [Hc Hp].
      destruct (Nat.eq_dec (cnt a C) 0) as [Z|Z].
      - assert (0 < hrefs h a) as Hr by lia. unfold hrefs in Hr. apply sum_pos in Hr as (b & _ & Hb). unfold ccnt in Hb.
        destruct (h_cell h b) as [[rcb nsb]|] eqn:Qb; [|lia]. apply cnt_pos_in in Hb as (m & Hm & Km).
        destruct (inv_den _ _ I _ _ _ Qb) as (tsb & Db). destruct (dens_in h nsb tsb m Db Hm) as (u & Du & Lu).
        destruct m as [p v km]. cbn [n_kids] in Km. subst km. inversion Du as [|p' v' a' rc' ns' ts' Ha' Ds' E1 E2]; subst.
        rewrite Ha in Ha'. injection Ha' as <- <-. pose proof (proj2 (den_fun h) _ _ D _ Ds') as <-. simpl in Lu. fold (tsizes ts) in Lu.
        assert (tsizes tsb <= B) by (eapply HB; eauto).
        destruct (IH b rcb nsb tsb Qb Db) as (n & Hn & R); [lia|]. exists n. split; auto. eapply reach_snoc; eauto.
      - destruct (cnt_pos_in a C) as (n & Hn & Q); [lia|]. exists n. split; auto. now constructor. }
    intros a rc ns Ha. destruct (inv_den _ _ I _ _ _ Ha) as (ts & D). eapply (G (S (B - tsizes ts))); eauto.
  Qed.
End Refine.

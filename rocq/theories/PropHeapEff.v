(** Property C91: programs of public calls on ArcRadixTree and LazyRadixTree whose closures have effects and may panic.

    [he_run] (HeapEffModel.v) runs a program on a heap of reference-counted, copy-on-write vectors; a panic of a closure
    unwinds out of the operation, is caught by the caller, and the program goes on with what is left. [pe_run] runs it on
    plain trees that share nothing. [F] is fuel for recursions and loops: every sufficiently large F gives the same result.
    Specification: HeapEffSpec.v (which programs are meaningful), RadixEffSpec.v (what a single call does). *)
From Coq Require Import Permutation.
From Verif Require Import RadixReach PropRadix PropRadixEff PropHeapOps HeapEffWO.
From Verif Require Export HeapEffSpec HeapEffRefine.

Section C91.
  Context {K V : Type} {kcmp : K -> K -> comparison} (L : OrdLaws kcmp) (EQ : OrdEq kcmp) (strat : nat -> nat -> bool) (arc : bool) {E : Type}.
  Notation tree := (rtree K V).
  Notation WO := (WO kcmp).
  Notation Canon := (Canon kcmp).
  Notation eapi := (eapi K V E).
  Notation he_run := (he_run kcmp strat arc).
  Notation he_step := (he_step kcmp strat arc).
  Notation pe_run := (pe_run kcmp strat).
  Notation pe_step := (pe_step kcmp strat).
  Implicit Types (vs : regs tree) (e : E) (o : eapi) (os : list eapi).

  (** ** The registers stay in order *)
  Definition all_wo vs : Prop := forall i t, rget i vs = Some t -> WO t.
  Lemma init_wo n : all_wo (repeat None n).
  Proof. intros i t. unfold rget. revert i. induction n; intros [|i]; cbn; try discriminate. apply IHn. Qed.
  Lemma take_wo i vs x v1 : all_wo vs -> rtake i vs = Some (x, v1) -> WO x /\ all_wo v1.
  Proof.
    intros A Q. split; [apply (A i); eapply rtake_get; eauto|]. intros j t H. eapply A. eapply rtake_get2; eauto.
  Qed.
  Lemma rput_get (i : nat) (x : tree) vs vs' : rput i x vs = Some vs' -> rget i vs' = Some x.
  Proof.
    unfold rput. destruct (nth_error vs i) as [[?|]|] eqn:Q; try discriminate. intros [= <-]. unfold rget. now rewrite (nth_upd_same vs i _ _ Q).
  Qed.
  Lemma put_wo i x vs vs' : all_wo vs -> WO x -> rput i x vs = Some vs' -> all_wo vs'.
  Proof.
    intros A W Q j t H. destruct (Nat.eq_dec j i) as [->|N].
    - rewrite (rput_get _ _ _ _ Q) in H. now injection H as <-.
    - rewrite (rput_other _ _ _ _ _ Q N) in H. now apply (A j).
  Qed.

  (** which registers are full *)
  Definition shape {X} (s : regs X) : regs unit := map (option_map (fun _ => tt)) s.
  Lemma shape_nth {X} i (s : regs X) : nth_error (shape s) i = option_map (option_map (fun _ => tt)) (nth_error s i).
  Proof. apply nth_error_map. Qed.
  Lemma shape_get {X} i (s : regs X) : rget i (shape s) = option_map (fun _ => tt) (rget i s).
  Proof. unfold rget. rewrite shape_nth. now destruct (nth_error s i) as [[x|]|]. Qed.
  Lemma shape_upd {X} i (x : option X) s : shape (upd_nth i x s) = upd_nth i (option_map (fun _ => tt) x) (shape s).
  Proof. unfold upd_nth, shape. rewrite map_app, firstn_map. cbn [map]. now rewrite skipn_map. Qed.
  Lemma shape_put {X} i (x : X) s : rput i tt (shape s) = option_map shape (rput i x s).
  Proof.
    unfold rput. rewrite shape_nth. destruct (nth_error s i) as [[y|]|]; cbn [option_map]; auto. now rewrite shape_upd.
  Qed.
  Lemma shape_take {X} i (s : regs X) : u_take i (shape s) = option_map (fun p => shape (snd p)) (rtake i s).
  Proof.
    unfold u_take, rtake. rewrite shape_get. destruct (rget i s) as [x|]; cbn [option_map snd]; auto. now rewrite shape_upd.
  Qed.
  Lemma shape_has {X} i (s : regs X) : u_has i (shape s) = option_map (fun _ => shape s) (rget i s).
  Proof. unfold u_has. rewrite shape_get. now destruct (rget i s). Qed.
  Lemma shape_init {X} n : shape (repeat (@None X) n) = repeat None n.
  Proof. unfold shape. induction n; cbn; congruence. Qed.

  (** *** A step from registers in order: it is defined whenever the registers are used meaningfully, and leaves the
      registers in order *)
  Definition total (us : option (regs unit)) (r : option (regs tree * E * list (eobs K V))) : Prop :=
    (forall vs' e' l, r = Some (vs', e', l) -> all_wo vs') /\
    (forall us', us = Some us' -> exists vs' e' l, r = Some (vs', e', l) /\ shape vs' = us').
  Lemma total_put vs j x e l : all_wo vs -> WO x -> forall r,
    r = match rput j x vs with Some v1 => Some (v1, e, l) | None => None end -> total (u_put j (shape vs)) r.
  Proof.
    intros A W r ->. unfold u_put. rewrite (shape_put j x). destruct (rput j x vs) as [v1|] eqn:Q; cbn [option_map]; split; try discriminate.
    - intros ? ? ? [= <- <- <-]. eapply put_wo; eauto.
    - intros ? [= <-]. eauto 6.
  Qed.
  Lemma total_none : total None None.
  Proof. split; discriminate. Qed.
  Lemma total_stay vs us e l : all_wo vs -> us = Some (shape vs) -> total us (Some (vs, e, l)).
  Proof. intros A ->. split; [now intros ? ? ? [= <- <- <-]|intros ? [= <-]; eauto 6]. Qed.
  Lemma total_in_place vs i b act e : all_wo vs ->
    (forall x y, WO x -> WO y -> exists t e', (act x y e = Done (t, e') \/ act x y e = Unwound (t, e')) /\ WO t) ->
    total (u_both i b (shape vs)) (pe_in_place act i b vs e).
  Proof.
    intros A H. unfold u_both, pe_in_place. rewrite shape_take. destruct (rtake i vs) as [[x s1]|] eqn:Q; cbn [option_map u_then snd]; [|apply total_none].
    destruct (take_wo _ _ _ _ A Q) as [Wx A1].
    rewrite shape_has. destruct (rget b s1) as [y|] eqn:Qb; cbn [option_map u_then]; [|apply total_none].
    destruct (H x y Wx (A1 _ _ Qb)) as (t & e' & [->| ->] & Wt); unfold u_put; rewrite (shape_put i t);
      (destruct (rput i t s1) as [v2|] eqn:Qp; cbn [option_map]; [|apply total_none]); (split; [intros ? ? ? [= <- <- <-]; eapply put_wo; eauto|intros ? [= <-]; eauto 6]).
  Qed.
  Lemma total_p_in_place vs i b act e : all_wo vs -> (forall x y, WO x -> WO y -> exists t, act x y = Ok t /\ WO t) ->
    total (u_both i b (shape vs)) (match p_in_place act i b vs with Some (v', l) => Some (v', e, map Saw l) | None => None end).
  Proof.
    intros A H. unfold u_both, p_in_place. rewrite shape_take. destruct (rtake i vs) as [[x s1]|] eqn:Q; cbn [option_map u_then snd]; [|apply total_none].
    destruct (take_wo _ _ _ _ A Q) as [Wx A1].
    rewrite shape_has. destruct (rget b s1) as [y|] eqn:Qb; cbn [option_map u_then]; [|apply total_none].
    destruct (H x y Wx (A1 _ _ Qb)) as (t & -> & Wt). unfold u_put; rewrite (shape_put i t).
    destruct (rput i t s1) as [v2|] eqn:Qp; cbn [option_map]; [|apply total_none]. split; [intros ? ? ? [= <- <- <-]; eapply put_wo; eauto|intros ? [= <-]; eauto 6].
  Qed.
  Lemma total_p_into vs a b j act e : all_wo vs -> (forall x y, WO x -> WO y -> exists t, act x y = Ok t /\ WO t) ->
    total (u_then (u_has a (shape vs)) (fun s => u_then (u_has b s) (u_put j)))
      (match p_into act a b j vs with Some (v', l) => Some (v', e, map Saw l) | None => None end).
  Proof.
    intros A H. unfold p_into. rewrite shape_has. destruct (rget a vs) as [x|] eqn:Q; cbn [option_map u_then]; [|apply total_none].
    rewrite shape_has. destruct (rget b vs) as [y|] eqn:Qb; cbn [option_map u_then]; [|apply total_none].
    destruct (H x y (A _ _ Q) (A _ _ Qb)) as (t & -> & Wt). eapply total_put; [exact A|exact Wt|].
    instantiate (1 := []). instantiate (1 := e). now destruct (rput j t vs).
  Qed.
  Lemma total_ask vs a b (act : tree -> tree -> res bool) e : all_wo vs -> (forall x y, WO x -> WO y -> exists r, act x y = Ok r) ->
    total (u_then (u_has a (shape vs)) (u_has b))
      (match (match rget a vs, rget b vs with Some x, Some y => p_answer GotBool vs (act x y) | _, _ => None end) with Some (v', l) => Some (v', e, map Saw l) | None => None end).
  Proof.
    intros A H. rewrite shape_has. destruct (rget a vs) as [x|] eqn:Q; cbn [option_map u_then]; [|apply total_none].
    rewrite shape_has. destruct (rget b vs) as [y|] eqn:Qb; cbn [option_map]; [|apply total_none].
    destruct (H x y (A _ _ Q) (A _ _ Qb)) as (r & ->). cbn [p_answer]. now apply total_stay.
  Qed.
  Lemma comb_ok op (x y : tree) P : combines (kcmp := kcmp) op x y P -> exists t, op x y = Ok t /\ WO t.
  Proof. intros (t & Q & W & _). eauto. Qed.
  Lemma joins_ok ka hb (f : mclos E V V) c (x y : tree) e r : joins kcmp ka hb f c x y e r -> exists t e', (r = Done (t, e') \/ r = Unwound (t, e')) /\ WO t.
  Proof.
    unfold joins. destruct (join kcmp ka hb f (listing x) (listing y) e) as [[o e'] [[k v]|]].
    - intros (t & -> & W & _). eauto.
    - intros (t & -> & _ & W & _). eauto.
  Qed.
  Lemma stays_ok (x y : tree) (r : done (tree * E)) : stays x y r (kcmp := kcmp) -> r <> DoneNoFuel -> exists t e', (r = Done (t, e') \/ r = Unwound (t, e')) /\ WO t.
  Proof.
    destruct r as [[t e']|[t e']|]; cbn [stays]; try easy; intros; exists t, e'; intuition.
  Qed.

  Lemma step_total o vs e : epublic kcmp o -> all_wo vs -> total (u_step o (shape vs)) (pe_step o vs e).
  Proof.
    intros P A. destruct o as [o|f i b|f i b|f i b|f i b|f i b]; cbn [HeapEffModel.pe_step u_step].
    - destruct o as [o|k v j|i k v|i p|i p j|f i b|f i b|f i b|f i b|f i b|f a b j|f a b j|f a b j|i k|i|a b|a b]; cbn [pstep].
      + destruct o as [j|p v src j|w t j|t j|i j|i|i j|i path|i path c j|i path p|i path v|i path pos src|i path pos j]; cbn [epublic] in P; try easy; cbn [vstep].
        * eapply (total_put vs j (Node [] None []) e []); auto; [apply node_wo, wfc_nil|]. now destruct (rput j _ vs).
        * eapply (total_put vs j t e []); auto. now destruct (rput j _ vs).
        * eapply (total_put vs j t e []); auto. now destruct (rput j _ vs).
        * rewrite shape_has. destruct (rget i vs) as [t|] eqn:Q; cbn [option_map u_then]; [|apply total_none].
          eapply (total_put vs j t e []); auto; [now apply (A i)|]. now destruct (rput j _ vs).
        * rewrite shape_take. destruct (rtake i vs) as [[t v1]|] eqn:Q; cbn [option_map snd]; [|apply total_none].
          destruct (take_wo _ _ _ _ A Q). now apply total_stay.
        * rewrite shape_take. destruct (rtake i vs) as [[t v1]|] eqn:Q; cbn [option_map snd u_then]; [|apply total_none].
          destruct (take_wo _ _ _ _ A Q). eapply (total_put v1 j t e []); auto. now destruct (rput j _ v1).
        * split; [|discriminate]. intros v' e' l H. destruct (rget i vs) as [t|]; [|discriminate]. destruct (t_sub path t); [|discriminate]. injection H as <- <- <-. exact A.
      + eapply (total_put vs j (rt_single k v) e []); auto; [apply (canon_WO (kcmp := kcmp)), node_canon|]. now destruct (rput j _ vs).
      + rewrite shape_take. destruct (rtake i vs) as [[x v1]|] eqn:Q; cbn [option_map snd u_then]; [|apply total_none].
        destruct (take_wo _ _ _ _ A Q) as [Wx A1]. destruct (C45_insert L EQ strat x k v Wx) as (t & -> & Wt & _).
        eapply (total_put v1 i t e []); auto. now destruct (rput i _ v1).
      + rewrite shape_take. destruct (rtake i vs) as [[x v1]|] eqn:Q; cbn [option_map snd u_then]; [|apply total_none].
        destruct (take_wo _ _ _ _ A Q) as [Wx A1]. destruct (C54_prepend EQ x p Wx) as (Wt & _).
        eapply (total_put v1 i _ e []); auto; [exact Wt|]. now destruct (rput i _ v1).
      + rewrite shape_has. destruct (rget i vs) as [x|] eqn:Q; cbn [option_map u_then]; [|apply total_none].
        destruct (C54_filter_prefix L EQ x p (A _ _ Q)) as (t & -> & Wt & _).
        eapply (total_put vs j t e []); auto. now destruct (rput j _ vs).
      + apply total_p_in_place; auto. intros x y Wx Wy. eapply comb_ok, (C48_outer_combine_with L EQ strat f); auto.
      + apply total_p_in_place; auto. intros x y Wx Wy. eapply comb_ok, (C49_inner_combine_with L EQ strat f); auto.
      + apply total_p_in_place; auto. intros x y Wx Wy. eapply comb_ok, (C50_left_combine_with L EQ strat f); auto.
      + apply total_p_in_place; auto. intros x y Wx Wy. eapply comb_ok, (C52_remove_prefix_with L EQ strat f); auto.
      + apply total_p_in_place; auto. intros x y Wx Wy. eapply comb_ok, (C53_retain_prefix_with L EQ strat f); auto.
      + apply total_p_into; auto. intros x y Wx Wy. eapply comb_ok, (C48_outer_combine L EQ strat f); auto.
      + apply total_p_into; auto. intros x y Wx Wy. eapply comb_ok, (C49_inner_combine L EQ strat f); auto.
      + apply total_p_into; auto. intros x y Wx Wy. eapply comb_ok, (C51_left_combine_exact L EQ strat f); auto.
      + rewrite shape_has. destruct (rget i vs) as [x|] eqn:Q; cbn [option_map]; [|apply total_none].
        destruct (C44_get L EQ x k (A _ _ Q)) as (r & -> & _). cbn [p_answer]. now apply total_stay.
      + rewrite shape_has. destruct (rget i vs) as [x|] eqn:Q; cbn [option_map]; [|apply total_none].
        destruct (C56_iter EQ x (A _ _ Q)) as (r & -> & _). cbn [p_answer]. now apply total_stay.
      + apply total_ask; auto. intros x y Wx Wy. destruct (C58_intersects L EQ strat x y Wx Wy) as (r & -> & _). eauto.
      + apply total_ask; auto. intros x y Wx Wy. apply (C59_check_exact L) in Wx, Wy. destruct (C59_is_subset_sound L EQ strat x y Wx Wy) as (r & -> & _). eauto.
    - apply total_in_place; auto. intros x y Wx Wy. eapply joins_ok, (C74_outer_combine_with kcmp L EQ strat f); auto.
    - apply total_in_place; auto. intros x y Wx Wy. eapply joins_ok, (C74_inner_combine_with kcmp L EQ strat f); auto.
    - apply total_in_place; auto. intros x y Wx Wy. eapply joins_ok, (C74_left_combine_with kcmp L EQ strat f); auto.
    - apply total_in_place; auto. intros x y Wx Wy. unfold ert_remove_prefix_with. apply (stays_ok x y); [now apply eremove_wo|apply (eremove_fuel L); auto].
    - apply total_in_place; auto. intros x y Wx Wy. unfold ert_retain_prefix_with. apply (stays_ok x y); [now apply eretain_wo|apply (eretain_fuel L); auto].
  Qed.

  (** ** On the heap *)
  Lemma e_in_place_good act pact i b st vs vs' e e' out F : good st vs -> all_wo vs -> fits F vs i -> fits F vs b ->
    (forall k, erecok kcmp (pact k) (act F) F) ->
    pe_in_place (fun x y => pact (S (t_size x + t_size y)) x y) i b vs e = Some (vs', e', out) ->
    exists st', he_in_place (act F) i b st e = Some (st', e', out) /\ good st' vs'.
  Proof.
    destruct st as [h s]. intros (I & Ds & R) A Hf Hf2 Hr H. unfold pe_in_place in H. unfold he_in_place. cbn [fst snd] in *.
    destruct (rtake i vs) as [[x v1]|] eqn:Q; [|discriminate]. destruct (rget b v1) as [y|] eqn:Qb; [|discriminate].
    pose proof (Hf _ (rtake_get _ _ _ _ Q)) as E1. pose proof (Hf2 _ (rtake_get2 _ _ _ _ _ _ Q Qb)) as E2.
    destruct (take_wo _ _ _ _ A Q) as [Wx A1].
    destruct (rtake_rel h s vs i x v1 R Q) as (n & s1 & -> & D & R1 & P1).
    destruct (rget_rel h s1 v1 b y R1 Qb) as (m & -> & Dm & Im).
    assert (Y : eyield1 h (static :: nodes_of s1) (act F h n m e) (pact (S (t_size x + t_size y)) x y e)).
    { eapply Hr; eauto.
      - eapply inv_perm; [|exact I]. rewrite P1. apply perm_swap.
      - split; auto. now left.
      - right. left. now right.
      - lia. }
    assert (Put : forall h1 n1 t v2, owns h (static :: nodes_of s1) h1 n1 t -> rput i t v1 = Some v2 ->
      exists s2, rput i n1 s1 = Some s2 /\ good (h1, s2) v2).
    { intros h1 n1 t v2 (I1 & D1 & F1 & M1) Qp. destruct (put_good h s1 v1 i (Some (h1, n1)) t v2) as (st' & Qs & G); auto.
      - exists h1, n1. split; [reflexivity|]. split; [exact I1|]. split; [exact D1|]. split; [exact F1|exact M1].
      - unfold into_reg in Qs. destruct (rput i n1 s1) as [s2|]; [|discriminate]. injection Qs as <-. eauto. }
    destruct (pact (S (t_size x + t_size y)) x y e) as [[t e1]|[t e1]|]; cbn [eyield1] in Y; [| |discriminate];
      (destruct (rput i t v1) as [v2|] eqn:Qp; [|discriminate]); injection H as <- <- <-; destruct Y as (h1 & n1 & -> & O);
      destruct (Put _ _ _ _ O Qp) as (s2 & -> & G); eauto.
  Qed.
  Lemma estep_good o vs vs' e e' out : pe_step o vs e = Some (vs', e', out) -> all_wo vs ->
    forall F st, 2 * depth vs <= F -> good st vs -> exists st', he_step F o st e = Some (st', e', out) /\ good st' vs'.
  Proof.
    intros H A F st Hf G.
    assert (Fit : forall i, fits F vs i) by (intros i t Q; pose proof (depth_get _ _ _ Q); lia).
    destruct o as [o|f i b|f i b|f i b|f i b|f i b]; cbn [HeapEffModel.pe_step HeapEffModel.he_step] in *.
    - destruct (pstep kcmp strat o vs) as [[v1 l]|] eqn:Q; [|discriminate]. injection H as <- <- <-.
      destruct (astep_good kcmp strat arc o vs v1 l Q F st Hf G) as (st' & -> & G'). eauto.
    - eapply (e_in_place_good (he_outer kcmp strat arc f)); eauto. apply eouter_refines.
    - eapply (e_in_place_good (he_inner kcmp strat arc f)); eauto. apply einner_refines.
    - eapply (e_in_place_good (he_left kcmp strat arc f)); eauto. apply eleft_refines.
    - eapply (e_in_place_good (he_remove kcmp strat arc f)); eauto. apply eremove_refines.
    - eapply (e_in_place_good (he_retain kcmp strat arc f)); eauto. apply eretain_refines.
  Qed.
  Lemma erun_good os : Forall (epublic kcmp) os -> forall vs vs' e e' out, all_wo vs -> pe_run os vs e = Some (vs', e', out) ->
    all_wo vs' /\ exists F0, forall F st, F0 <= F -> good st vs -> exists st', he_run F os st e = Some (st', e', out) /\ good st' vs'.
  Proof.
    induction 1 as [|o os Po _ IH]; intros vs vs' e e' out A H; cbn [HeapEffModel.pe_run HeapEffModel.he_run] in *.
    - injection H as <- <- <-. split; auto. exists 0. eauto.
    - destruct (pe_step o vs e) as [[[v1 e1] l1]|] eqn:Q; [|discriminate]. destruct (pe_run os v1 e1) as [[[v2 e2] l2]|] eqn:Q2; [|discriminate].
      injection H as <- <- <-. pose proof (proj1 (step_total o vs e Po A) _ _ _ Q) as A1.
      destruct (IH v1 v2 e1 e2 l2 A1 Q2) as (A2 & F0 & H0). split; auto. exists (Nat.max F0 (2 * depth vs)). intros F st Hf G.
      destruct (estep_good o vs v1 e e1 l1 Q A F st ltac:(lia) G) as (st1 & -> & G1).
      destruct (H0 F st1 ltac:(lia) G1) as (st2 & -> & G2). eauto.
  Qed.
  Lemma erun_total os : Forall (epublic kcmp) os -> forall vs e us, all_wo vs -> u_run os (shape vs) = Some us ->
    exists vs' e' out, pe_run os vs e = Some (vs', e', out).
  Proof.
    induction 1 as [|o os Po _ IH]; intros vs e us A H; cbn [HeapEffModel.pe_run u_run] in *; [eauto|].
    destruct (u_step o (shape vs)) as [u1|] eqn:Q; [|discriminate]. cbn [u_then] in H. destruct (step_total o vs e Po A) as [W T].
    destruct (T _ Q) as (v1 & e1 & l1 & Q1 & <-). rewrite Q1. destruct (IH v1 e1 us (W _ _ _ Q1) H) as (v2 & e2 & l2 & ->). eauto.
  Qed.

  (** ** C91 *)
  (** sharing is invisible, also to a program that catches panics *)
  Theorem C91_panics_on_shared_trees (n : nat) os e (vs : regs tree) e' (out : list (eobs K V)) :
    Forall (epublic kcmp) os -> pe_run os (repeat None n) e = Some (vs, e', out) ->
    exists F0, forall F, F0 <= F -> exists st, he_run F os (hinit n) e = Some (st, e', out) /\
      forall i t, holds_tree st i t <-> rget i vs = Some t.
  Proof.
    intros P H. destruct (erun_good os P _ _ _ _ _ (init_wo n) H) as (_ & F0 & H0). exists F0. intros F Hf.
    destruct (H0 F _ Hf (init_good n)) as (st & -> & G). exists st. split; auto. intros i t. now apply good_holds.
  Qed.
  (** a program that uses its variables meaningfully runs to its end: no panic but those of its closures, no use of freed
      memory, whatever the closures do; and then every variable that should be full holds a tree in order *)
  Theorem C91_programs_run (n : nat) os e us : Forall (epublic kcmp) os -> u_run os (repeat None n) = Some us ->
    exists F0 e' out, forall F, F0 <= F -> exists st, he_run F os (hinit n) e = Some (st, e', out) /\
      forall i t, holds_tree st i t -> WO t.
  Proof.
    intros P U. rewrite <- (shape_init (X := tree)) in U. destruct (erun_total os P _ e _ (init_wo n) U) as (vs & e' & out & H).
    destruct (erun_good os P _ _ _ _ _ (init_wo n) H) as (W & F0 & H0). exists F0, e', out. intros F Hf.
    destruct (H0 F _ Hf (init_good n)) as (st & -> & G). exists st. split; auto. intros i t Ht. apply (good_holds st vs) in Ht; auto. now apply (W i).
  Qed.
  (** nothing leaks, also when operations unwind *)
  Theorem C91_no_leak (n : nat) os e vs e' out : Forall (epublic kcmp) os -> pe_run os (repeat None n) e = Some (vs, e', out) ->
    exists F0, forall F, F0 <= F -> exists st, he_run F os (hinit n) e = Some (st, e', out) /\
      (forall a, h_cell (fst st) a <> None -> a = 0 \/ exists i m, rget i (snd st) = Some m /\ HeapSpec.reach (fst st) m a) /\
      ((forall i, rget i vs = None) -> forall a, a <> 0 -> h_cell (fst st) a = None).
  Proof.
    intros P H. destruct (erun_good os P _ _ _ _ _ (init_wo n) H) as (_ & F0 & H0). exists F0. intros F Hf.
    destruct (H0 F _ Hf (init_good n)) as (st & -> & G). exists st. split; auto. pose proof (good_live st vs G) as Lv. split; auto.
    intros Em a Na. destruct (h_cell (fst st) a) as [c|] eqn:Qa; auto. exfalso.
    destruct (Lv a) as [->|(i & m & Hm & _)]; [congruence|congruence|].
    destruct G as (_ & _ & R). pose proof (rel_nth _ _ _ i R) as Q. specialize (Em i). unfold rget in *.
    destruct (nth_error (snd st) i) as [[y|]|]; try discriminate. destruct (nth_error vs i) as [[t|]|]; easy.
  Qed.
  (** *** One call in any program: what it does to its own variable, and that it does nothing to any other, although they
      share nodes *)
  Lemma pe_frame o vs vs' e e' l j : epublic kcmp o -> pe_step o vs e = Some (vs', e', l) -> ~ In j (etarget o) -> rget j vs' = rget j vs.
  Proof.
    assert (U : forall g i b vs vs' e e' out, pe_in_place g i b vs e = Some (vs', e', out) -> j <> i -> @rget tree j vs' = rget j vs).
    { intros g i b w w' e1 e2 o' Hp Hn. unfold pe_in_place in Hp. destruct (rtake i w) as [[x w1]|] eqn:Q; [|discriminate]. destruct (rget b w1) as [y|]; [|discriminate].
      destruct (g x y e1) as [[x' e3]|[x' e3]|]; try discriminate; (destruct (rput i x' w1) as [w2|] eqn:Q2; [|discriminate]); injection Hp as <- _ _;
      rewrite (rput_other _ _ _ _ _ Q2 Hn); eapply rtake_other; eauto. }
    intros P H N. destruct o as [o|f i b|f i b|f i b|f i b|f i b]; cbn [HeapEffModel.pe_step] in H; try (eapply U; [exact H|intros ->; apply N; now left]).
    destruct (pstep kcmp strat o vs) as [[v1 l1]|] eqn:Q; [|discriminate]. injection H as <- _ _. eapply pstep_frame; [exact Q|].
    intros Hj. apply N. destruct o as [o|k v i|i k v|i p|i p i'|f i b|f i b|f i b|f i b|f i b|f a b i|f a b i|f a b i|i k|i|a b|a b]; cbn [target etarget] in *; auto.
    destruct o; cbn [epublic] in P; try easy; cbn [changes names etarget] in *; auto.
  Qed.
  Definition ends (r : done (tree * E)) (st : state K V) (i : nat) (e' : E) (l : list (eobs K V)) : Prop :=
    match r with
    | Done (t, e1) => e' = e1 /\ l = [] /\ holds_tree st i t
    | Unwound (t, e1) => e' = e1 /\ l = [Caught] /\ holds_tree st i t
    | DoneNoFuel => False
    end.
  (** what the call must do to the tree [x], given the tree [y]: RadixEffSpec.v *)
  Definition call_spec (o : eapi) (x y : tree) (e : E) (r : done (tree * E)) : Prop :=
    match o with
    | EOuterWith f _ _ => joins kcmp true Some f (Canon x /\ Canon y) x y e r
    | EInnerWith f _ _ => joins kcmp false (fun _ => None) f (Canon x) x y e r
    | ELeftWith f _ _ => joins kcmp true (fun _ => None) f (Canon x) x y e r
    | ERemoveWith f _ _ => Canon x -> t_is_empty x = false -> prunes kcmp true f x y e r
    | ERetainWith f _ _ => Canon x -> t_is_empty x = false -> prunes kcmp false f x y e r
    | EPlain _ => False
    end.
  Definition operands (o : eapi) : option (nat * nat) :=
    match o with
    | EOuterWith _ i b | EInnerWith _ i b | ELeftWith _ i b | ERemoveWith _ i b | ERetainWith _ i b => Some (i, b)
    | EPlain _ => None
    end.
  Theorem C91_call (n : nat) os e vs e1 out o i b x y : Forall (epublic kcmp) os -> pe_run os (repeat None n) e = Some (vs, e1, out) ->
    operands o = Some (i, b) -> i <> b -> rget i vs = Some x -> rget b vs = Some y ->
    exists F0, forall F, F0 <= F -> exists st st' e2 l r,
      he_run F os (hinit n) e = Some (st, e1, out) /\ holds_tree st i x /\ holds_tree st b y /\
      he_step F o st e1 = Some (st', e2, l) /\ ends r st' i e2 l /\ call_spec o x y e1 r /\
      forall j t, j <> i -> (holds_tree st' j t <-> holds_tree st j t).
  Proof.
    intros P H Op Ne Hx Hy. destruct (erun_good os P _ _ _ _ _ (init_wo n) H) as (A & F0 & H0).
    assert (Po : epublic kcmp o) by (destruct o; easy). assert (Wx := A _ _ Hx). assert (Wy := A _ _ Hy).
    assert (S : exists r act, call_spec o x y e1 r /\ r = act x y e1 /\ pe_step o vs e1 = pe_in_place act i b vs e1 /\ r <> DoneNoFuel).
    { destruct o as [o|f i' b'|f i' b'|f i' b'|f i' b'|f i' b']; cbn [operands] in Op; try discriminate; injection Op as -> ->; cbn [HeapEffModel.pe_step call_spec].
      - eexists _, _. split; [apply (C74_outer_combine_with kcmp L EQ strat f); auto|]. split; [reflexivity|]. split; [reflexivity|].
        destruct (joins_ok _ _ _ _ _ _ _ _ (C74_outer_combine_with kcmp L EQ strat f x y e1 Wx Wy)) as (? & ? & [-> | ->] & _); discriminate.
      - eexists _, _. split; [apply (C74_inner_combine_with kcmp L EQ strat f); auto|]. split; [reflexivity|]. split; [reflexivity|].
        destruct (joins_ok _ _ _ _ _ _ _ _ (C74_inner_combine_with kcmp L EQ strat f x y e1 Wx Wy)) as (? & ? & [-> | ->] & _); discriminate.
      - eexists _, _. split; [apply (C74_left_combine_with kcmp L EQ strat f); auto|]. split; [reflexivity|]. split; [reflexivity|].
        destruct (joins_ok _ _ _ _ _ _ _ _ (C74_left_combine_with kcmp L EQ strat f x y e1 Wx Wy)) as (? & ? & [-> | ->] & _); discriminate.
      - eexists _, _. split; [intros Cx Nx; apply (C76_remove_prefix_with kcmp L EQ strat f); auto|]. split; [reflexivity|]. split; [reflexivity|].
        apply (eremove_fuel L); auto.
      - eexists _, _. split; [intros Cx Nx; apply (C76_retain_prefix_with kcmp L EQ strat f); auto|]. split; [reflexivity|]. split; [reflexivity|].
        apply (eretain_fuel L); auto. }
    destruct S as (r & act & Sp & Qr & Qs & Nr).
    assert (T : exists vs' e2 l t, pe_step o vs e1 = Some (vs', e2, l) /\ rget i vs' = Some t /\ ((r = Done (t, e2) /\ l = []) \/ (r = Unwound (t, e2) /\ l = [Caught]))).
    { rewrite Qs. unfold pe_in_place. destruct (rtake i vs) as [[x' v1]|] eqn:Qt; [|unfold rtake in Qt; rewrite Hx in Qt; discriminate].
      assert (x' = x) as -> by (apply rtake_get in Qt; congruence).
      rewrite (rtake_other i b x vs v1 Qt) by auto. rewrite Hy. rewrite <- Qr.
      assert (Pt : forall t, exists v2, rput i t v1 = Some v2).
      { intros t. unfold rtake in Qt. rewrite Hx in Qt. injection Qt as <-. unfold rget in Hx. destruct (nth_error vs i) as [[z|]|] eqn:Qn; try discriminate.
        unfold rput. rewrite (nth_upd_same vs i _ _ Qn). eauto. }
      destruct r as [[t e2]|[t e2]|]; [| |congruence]; destruct (Pt t) as (v2 & Q2); rewrite Q2; exists v2, e2; eexists _, t;
        (split; [reflexivity|]); (split; [eapply rput_get; eauto|auto]). }
    destruct T as (vs' & e2 & l & t & Qp & Qi & Qe).
    exists (Nat.max F0 (2 * depth vs)). intros F Hf. destruct (H0 F _ ltac:(lia) (init_good n)) as (st & Q1 & G1).
    destruct (estep_good o vs vs' e1 e2 l Qp A F st ltac:(lia) G1) as (st' & Q2 & G2).
    exists st, st', e2, l, r. split; auto. split; [now apply (good_holds st vs)|]. split; [now apply (good_holds st vs)|]. split; auto.
    assert (Ht : holds_tree st' i t) by now apply (good_holds st' vs').
    split; [destruct Qe as [[-> ->]|[-> ->]]; cbn; auto|]. split; auto.
    intros j u Nj. rewrite (good_holds st vs), (good_holds st' vs') by auto. rewrite (pe_frame o vs vs' e1 e2 l j); [reflexivity|auto|auto|].
    destruct o; cbn [operands] in Op; try discriminate; injection Op as -> _; cbn; intros [->|[]]; congruence.
  Qed.
End C91.

(** ** Concrete cases that meet the hypotheses *)
(** Register 0 holds {[1;2]: 10, [1;3]: 7, [1;4]: 5}; 1 is a clone of it; 2 holds other values for the same keys.
    The closure adds, counts its calls, and panics at the value 7. The combination of 1 with 2 is interrupted in the second of
    three children; the clone 0 is not affected, and the program goes on with what is left in 1. *)
Definition ebuild : list (eapi nat nat nat) := map EPlain
  [ABase (OEmpty 0); AInsert 0 [1; 2] 10; AInsert 0 [1; 3] 7; AInsert 0 [1; 4] 5; ABase (OClone 0 1);
   ABase (OArchive (Node [1] None [Node [2] (Some 100) []; Node [3] (Some 100) []; Node [4] (Some 100) []]) 2)].
Definition eprog : list (eapi nat nat nat) :=
  ebuild ++ EOuterWith boom 1 2 :: map EPlain [AIter 0; AIter 1; AInsert 1 [1; 4] 6; AIter 1] ++
  ERemoveWith (fun e w => (e + 1, if e =? 3 then Throw else Ret (w =? 100))) 0 2 :: map EPlain [AIter 0; AIsSubset 1 0].
Definition eprog_out : list (eobs nat nat) :=
  [Caught; Saw (GotPairs [([1; 2], 10); ([1; 3], 7); ([1; 4], 5)]); Saw (GotPairs [([1; 2], 110)]);
   Saw (GotPairs [([1; 2], 110); ([1; 4], 6)]); Caught; Saw (GotPairs []); Saw (GotBool false)].
Definition eend (r : option (state nat nat * nat * list (eobs nat nat))) := match r with Some (_, e, l) => Some (e, l) | None => None end.
Example eprog_plain : match pe_run N0 lin eprog (repeat None 3) 0 with Some (_, e, l) => (e, l) = (4, eprog_out) | None => False end.
Proof. now vm_compute. Qed.
Example eprog_arc : eend (he_run N0 lin true 30 eprog (hinit 3) 0) = Some (4, eprog_out).
Proof. now vm_compute. Qed.
Example eprog_lazy : eend (he_run N0 lin false 30 eprog (hinit 3) 0) = Some (4, eprog_out).
Proof. now vm_compute. Qed.
Example earch_wo : WO N0 (Node [1] None [Node [2] (Some 100) []; Node [3] (Some 100) []; Node [4] (Some 100) []]).
Proof. apply (C59_check_exact nat_ord). reflexivity. Qed.
Example eprog_public : Forall (epublic N0) eprog.
Proof. unfold eprog, ebuild. cbn [map app]. repeat first [apply Forall_nil | apply Forall_cons; [first [exact Logic.I | exact earch_wo]|]]. Qed.
(** C91_programs_run *)
Example eprog_meaningful : u_run eprog (repeat None 3) = Some [Some tt; Some tt; Some tt].
Proof. reflexivity. Qed.
(** C91_no_leak: all registers emptied, on the heap *)
Definition edrop : list (eapi nat nat nat) := eprog ++ map (fun i => EPlain (ABase (ODrop i))) [0; 1; 2].
Example eprog_dropped : match pe_run N0 lin edrop (repeat None 3) 0 with Some (vs, _, _) => forall i, rget i vs = None | None => False end.
Proof. vm_compute. intros [|[|[|[|i]]]]; reflexivity. Qed.
Example eprog_dropped_heap : match he_run N0 lin true 30 edrop (hinit 3) 0 with
  | Some (st, _, _) => h_cell (fst st) 0 = Some (1, []) /\ forall a, In a (seq 1 60) -> h_cell (fst st) a = None | None => False end.
Proof. vm_compute. split; auto. intros a Ha. repeat (destruct Ha as [<-|Ha]; [reflexivity|]). destruct Ha. Qed.
(** C91_call: before the interrupted call, 0 and 1 share their children; the call is applied to existing trees *)
Example ebuild_shares : exists h n m s l, he_run N0 lin true 30 ebuild (hinit 3) 0 = Some ((h, Some n :: Some m :: s), 0, l) /\ n_kids n = n_kids m /\
  exists a ns, n_kids n = inr a /\ h_cell h a = Some (2, ns) /\ length ns = 3.
Proof. do 5 eexists. split; [now vm_compute|]. split; [reflexivity|]. do 2 eexists. split; [reflexivity|]. now vm_compute. Qed.
Example ebuild_operands : match pe_run N0 lin ebuild (repeat None 3) 0 with
  | Some (vs, _, _) => operands (K := nat) (V := nat) (EOuterWith boom 1 2) = Some (1, 2) /\ (exists x, rget 1 vs = Some x) /\ exists y, rget 2 vs = Some y | None => False end.
Proof. vm_compute. eauto 6. Qed.

Print Assumptions C91_panics_on_shared_trees.
Print Assumptions C91_programs_run.
Print Assumptions C91_no_leak.
Print Assumptions C91_call.

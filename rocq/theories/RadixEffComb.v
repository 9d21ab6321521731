(** The in-place combinations with effectful closures are joins of listings. *)
From Verif Require Export RadixEffMerge RadixComb.

Section EffComb.
  Context {K : Type} {kcmp : K -> K -> comparison} (L : OrdLaws kcmp) (EQ : OrdEq kcmp) {E : Type}.
  Context (strat : nat -> nat -> bool).
  Notation lex := (lex kcmp).
  Notation wf := (wf kcmp).
  Notation wfc := (wfc (kcmp := kcmp)).
  Notation hord := (hord (kcmp := kcmp)).
  Notation flat := (flat_map listing).

  Lemma lcp_same p : lcp kcmp p p = p.
  Proof. induction p as [|x p IH]; simpl; auto. now rewrite (kcmp_refl EQ), IH. Qed.
  Lemma lcp_left p x r : lcp kcmp p (p ++ x :: r) = p.
  Proof. induction p as [|y p IH]; simpl; auto. now rewrite (kcmp_refl EQ), IH. Qed.
  Lemma lcp_right p x r : lcp kcmp (p ++ x :: r) p = p.
  Proof. induction p as [|y p IH]; simpl; auto. now rewrite (kcmp_refl EQ), IH. Qed.
  Lemma lcp_fork s x r y u : x <> y -> lcp kcmp (s ++ x :: r) (s ++ y :: u) = s.
  Proof.
    intros N. induction s as [|z s IH]; simpl.
    - destruct (kcmp x y) eqn:C; auto. apply EQ in C. congruence.
    - now rewrite (kcmp_refl EQ), IH.
  Qed.

  Section Two.
    Context {V W : Type} (ka : bool) (hb : W -> option V) (f : mclos E V W) (q : bool).
    Notation join := (join kcmp ka hb f).
    Notation tspec := (tspec (kcmp := kcmp) ka hb f q).
    Notation lo := (left_only (K := K) (V := V) ka).
    Notation ro := (right_only (K := K) hb).

    Lemma tspec_rspec rec x y e : tspec x y e (rec x y e) -> hd_of x = hd_of y -> t_prefix x <> [] ->
      rspec (kcmp := kcmp) ka hb f rec q x y e.
    Proof.
      intros H Hh Hp. unfold RadixEffMerge.tspec in H. unfold rspec. destruct (join (listing x) (listing y) e) as [[o e'] [[k v]|]].
      - destruct H as (t & H & _). eauto.
      - destruct H as (t & H1 & H2 & H3 & H4). exists t. split; [auto|]. split; [auto|]. split; [|auto].
        intros He. destruct (ne_hd x Hp) as [h Qh]. rewrite Qh. apply H4; auto. congruence.
    Qed.

    Lemma done_ok self that p v l o e :
      join (listing self) (listing that) e = (map (under p) (own v ++ o), e, None) -> wfc q l -> flat l = o ->
      (forall h, hd_of self = Some h -> hd_of that = Some h -> hd_error p = Some h) ->
      tspec self that e (Done (t_unsplit (Node p v l), e)).
    Proof.
      intros J Wl Fl Hh. unfold RadixEffMerge.tspec. rewrite J. eexists. split; [reflexivity|].
      split; [now apply unsplit_wf|]. split; [rewrite listing_unsplit, listing_node, Fl; reflexivity|].
      intros h H1 H2. apply unsplit_hd; auto.
    Qed.

    Lemma fork_before {X Y} x r y u (v : option X) ca (w : option Y) cb : kcmp x y = Lt ->
      before (kcmp := kcmp) (listing (Node (x :: r) v ca)) (listing (Node (y :: u) w cb)).
    Proof.
      intros C [k1 z1] [k2 z2] H1 H2. rewrite listing_node in H1. rewrite listing_node in H2.
      apply in_map_iff in H1 as ([] & [= <- <-] & _). apply in_map_iff in H2 as ([] & [= <- <-] & _). cbn. now rewrite C.
    Qed.
    Lemma fork_join x r y u v (ca : list (rtree K V)) w (cb : list (rtree K W)) e : x <> y ->
      join (listing (Node (x :: r) v ca)) (listing (Node (y :: u) w cb)) e =
      (match kcmp x y with
       | Lt => flat_map lo (listing (Node (x :: r) v ca)) ++ flat_map ro (listing (Node (y :: u) w cb))
       | _ => flat_map ro (listing (Node (y :: u) w cb)) ++ flat_map lo (listing (Node (x :: r) v ca))
       end, e, None).
    Proof.
      intros N. set (a := listing (Node (x :: r) v ca)). set (b := listing (Node (y :: u) w cb)).
      destruct (kcmp x y) eqn:C.
      - apply EQ in C. congruence.
      - transitivity (join (a ++ []) b e); [now rewrite app_nil_r|].
        rewrite join_app_a, join_nil_l by now apply fork_before. reflexivity.
      - apply (cmp_gt_lt L) in C. transitivity (join a (b ++ []) e); [now rewrite app_nil_r|].
        rewrite (join_app_b L), join_nil_r by now apply fork_before. reflexivity.
    Qed.
    Lemma ro_all_none l : (forall w, hb w = None) -> flat_map ro l = [].
    Proof. intros H. induction l as [|z l IH]; auto. cbn [flat_map]. rewrite IH. unfold right_only. now rewrite H. Qed.

    Lemma vspec_nov w0 e : vspec (kcmp := kcmp) ka hb f None w0 e (match w0 with Some w => hb w | None => None end, e, true).
    Proof. cbn [vspec]. destruct w0 as [w|]; auto. cbn. unfold right_only. cbn. now destruct (hb w). Qed.
    Lemma vspec_now v0 e : vspec (kcmp := kcmp) ka hb f v0 None e (if ka then v0 else None, e, true).
    Proof. cbn [vspec]. destruct v0 as [v|]; cbn; [|now destruct ka]. unfold left_only. now destruct ka. Qed.
    Definition upd_both (v : V) (w : W) (e : E) : option V * E * bool :=
      let '(e', v', r) := f e v w in
      match r with
      | Ret true => (Some v', e', true)
      | Ret false => (None, e', true)
      | Throw => (Some v', e', false)
      end.
    Lemma vspec_both v w e : vspec (kcmp := kcmp) ka hb f (Some v) (Some w) e (upd_both v w e).
    Proof.
      unfold upd_both. destruct (f e v w) as [[e' v'] [[|]|]] eqn:Q; cbn; rewrite Q; auto. exists v, v'. auto.
    Qed.
  End Two.

  Lemma hd_common_nil (s : list K) x r y u h : x <> y -> hd_error (s ++ x :: r) = Some h -> hd_error (s ++ y :: u) = Some h ->
    hd_error s = Some h.
  Proof. destruct s; cbn; congruence. Qed.

  Ltac cases p p2 :=
    destruct (cp_cases EQ p p2) as [<- Hn|x r -> Hn|x r -> Hn|s x r y u -> -> Hxy Hn]; rewrite Hn; clear Hn;
    rewrite ?Nat.eqb_refl, ?app_cons_length; cbn [andb].
  Ltac shorten :=
    repeat match goal with
    | H : RadixSpec.wf _ _ ?t |- context [mat_short ?t ?n] =>
        rewrite (mat_short_ok (kcmp := kcmp) _ t n H) by (cbn [t_prefix]; rewrite app_length; simpl; lia)
    end;
    cbn [elift t_prefix t_value t_children]; rewrite ?skipn_app_exact, ?firstn_app_exact.
  Ltac splitted := unfold t_split at 1; cbn [t_prefix t_value t_children]; rewrite ?app_cons_ltb; cbn [elift t_prefix t_value t_children];
    rewrite ?skipn_app_exact, ?firstn_app_exact.

  (** the four cases, for any of the three operations *)
  Section Cases.
    Context {V W : Type} (ka : bool) (hb : W -> option V) (f : mclos E V W) (q qb : bool).
    Notation A := (rtree K V).
    Notation B := (rtree K W).
    Notation tspec := (tspec (kcmp := kcmp) ka hb f q).
    Context (rec : A -> B -> E -> done (A * E)) (M : list A -> list B -> E -> done (list A * E)).
    Hypothesis HM : forall ca cb, wfc q ca -> wfc qb cb ->
      (forall x y e, In x ca -> In y cb -> hd_of x = hd_of y -> rspec (kcmp := kcmp) ka hb f rec q x y e) ->
      forall e, cres_spec (kcmp := kcmp) ka hb f q ca cb e (M ca cb e).
    Context (N : nat).
    Hypothesis HR : forall x y e, t_size x + t_size y < N -> wf q x -> wf qb y -> tspec x y e (rec x y e).

    Lemma rec_children ca cb : wfc q ca -> wfc qb cb -> (forall x y, In x ca -> In y cb -> t_size x + t_size y < N) ->
      forall e, cres_spec (kcmp := kcmp) ka hb f q ca cb e (M ca cb e).
    Proof.
      intros Ca Cb Hs. apply HM; auto. intros x y e Hx Hy Hh.
      destruct (wfc_In _ _ _ Ca Hx) as (H1 & H2 & _). destruct (wfc_In _ _ _ Cb Hy) as (H3 & H4 & _).
      apply tspec_rspec; auto.
    Qed.

    Lemma case_same p v w ca cb e u : t_size (Node p v ca) + t_size (Node p w cb) <= N -> wf q (Node p v ca) -> wf qb (Node p w cb) ->
      vspec (kcmp := kcmp) ka hb f v w e u ->
      tspec (Node p v ca) (Node p w cb) e (evalue p ca u (fun v e => efinish p v (M ca cb e))).
    Proof.
      intros Hs Wa Wb HV. pose proof (wf_wfc _ _ Wa) as Ca. pose proof (wf_wfc _ _ Wb) as Cb. cbn [t_children] in *.
      eapply (node_ok L EQ) with (v0 := v) (w0 := w) (cb := cb); eauto.
      - apply lcp_same.
      - apply rec_children; auto. intros x y Hx Hy. pose proof (size_children (Node p v ca) x Hx). pose proof (size_children (Node p w cb) y Hy). lia.
    Qed.
    Lemma case_left p x r v w ca cb e : t_size (Node p v ca) + t_size (Node (p ++ x :: r) w cb) <= N ->
      wf q (Node p v ca) -> wf qb (Node (p ++ x :: r) w cb) ->
      tspec (Node p v ca) (Node (p ++ x :: r) w cb) e
        (efinish p (if ka then v else None) (M ca [Node (x :: r) w cb] e)).
    Proof.
      intros Hs Wa Wb. pose proof (wf_wfc _ _ Wa) as Ca. cbn [t_children] in *.
      assert (Wb' : wf qb (Node (x :: r) w cb)) by (eapply wf_shorten; [exact Wb|destruct p; discriminate]).
      assert (Cb : wfc qb [Node (x :: r) w cb]).
      { apply wfc_single; auto; [discriminate|]. intros ->. now apply wf_true_ne in Wb'. }
      change (efinish p (if ka then v else None) (M ca [Node (x :: r) w cb] e)) with
        (evalue p ca (if ka then v else None, e, true) (fun v e => efinish p v (M ca [Node (x :: r) w cb] e))).
      eapply (node_ok L EQ) with (v0 := v) (w0 := None) (cb := [Node (x :: r) w cb]); eauto.
      - rewrite listing_app. rewrite (listing_node p). cbn [own app flat_map]. now rewrite app_nil_r.
      - apply lcp_left.
      - apply vspec_now.
      - apply rec_children; auto. intros a y Ha [<-|[]]. pose proof (size_children (Node p v ca) a Ha). cbn [t_size] in *. lia.
    Qed.
    Lemma case_right p x r v w ca cb e : t_size (Node (p ++ x :: r) v ca) + t_size (Node p w cb) <= N ->
      wf q (Node (p ++ x :: r) v ca) -> wf qb (Node p w cb) ->
      tspec (Node (p ++ x :: r) v ca) (Node p w cb) e
        (efinish p (match w with Some w => hb w | None => None end) (M [Node (x :: r) v ca] cb e)).
    Proof.
      intros Hs Wa Wb. pose proof (wf_wfc _ _ Wb) as Cb. cbn [t_children] in *.
      assert (Wa' : wf q (Node (x :: r) v ca)) by (eapply wf_shorten; [exact Wa|destruct p; discriminate]).
      assert (Ca : wfc q [Node (x :: r) v ca]).
      { apply wfc_single; auto; [discriminate|]. intros ->. now apply wf_true_ne in Wa'. }
      set (v' := match w with Some w => hb w | None => None end).
      change (efinish p v' (M [Node (x :: r) v ca] cb e)) with
        (evalue p [Node (x :: r) v ca] (v', e, true) (fun z e => efinish p z (M [Node (x :: r) v ca] cb e))).
      eapply (node_ok L EQ) with (v0 := None) (w0 := w) (cb := cb); eauto.
      - rewrite listing_app. rewrite (listing_node p). cbn [own app flat_map]. now rewrite app_nil_r.
      - apply lcp_right.
      - apply vspec_nov.
      - apply rec_children; auto. intros a y [<-|[]] Hy. pose proof (size_children (Node p w cb) y Hy). cbn [t_size] in *. lia.
    Qed.
    Lemma fork_head s x r y u v (ca : list A) w (cb : list B) h : x <> y ->
      hd_of (Node (s ++ x :: r) v ca) = Some h -> hd_of (Node (s ++ y :: u) w cb) = Some h -> hd_error s = Some h.
    Proof. intros Hxy H1 H2. eapply hd_common_nil; eauto. Qed.
    Lemma fork_listing s x r y u v (ca : list A) w (cb : list B) e : x <> y ->
      join kcmp ka hb f (listing (Node (s ++ x :: r) v ca)) (listing (Node (s ++ y :: u) w cb)) e =
      (map (under s) (match kcmp x y with
       | Lt => flat_map (left_only ka) (listing (Node (x :: r) v ca)) ++ flat_map (right_only hb) (listing (Node (y :: u) w cb))
       | _ => flat_map (right_only hb) (listing (Node (y :: u) w cb)) ++ flat_map (left_only ka) (listing (Node (x :: r) v ca))
       end), e, None).
    Proof. intros N'. rewrite !listing_app, (join_under EQ), (fork_join ka hb f) by auto. reflexivity. Qed.
  End Cases.
  (** ** outer_combine_with *)
  Section S_outer.
    Context {V : Type} (f : mclos E V V) (q : bool).
    Notation hb := (fun w : V => Some w).
    Lemma ro_id (l : list (list K * V)) : flat_map (right_only hb) l = l.
    Proof. induction l as [|[k v] l IH]; auto. cbn [flat_map]. rewrite IH. reflexivity. Qed.
    Lemma eouter_spec fuel : forall (a b : rtree K V) e, t_size a + t_size b < fuel -> wf q a -> wf q b ->
      tspec (kcmp := kcmp) true hb f q a b e (eouter_with kcmp strat f fuel a b e).
    Proof.
      induction fuel as [|fuel IH]; intros a b e Hf Wa Wb; [lia|].
      pose (M := echildren_with kcmp strat (eouter_with kcmp strat f fuel) true true mat_conv).
      assert (HM : forall ca cb, wfc q ca -> wfc q cb ->
        (forall x y e, In x ca -> In y cb -> hd_of x = hd_of y -> rspec (kcmp := kcmp) true hb f (eouter_with kcmp strat f fuel) q x y e) ->
        forall e, cres_spec (kcmp := kcmp) true hb f q ca cb e (M ca cb e)).
      { intros ca cb Ca Cb H e0. eapply (echildren_ok L EQ); eauto. intros y Hy. destruct (wfc_In _ _ _ Cb Hy) as (H1 & H2 & H3).
        exists y. split; [now apply (mat_conv_ok (kcmp := kcmp) q)|]. rewrite ro_id. auto. }
      cbn [eouter_with]. fold M. destruct a as [p v ca], b as [p2 w cb]. cbn [t_prefix t_value t_children] in *.
      cases p p2.
      - eapply (case_same true hb f q q); eauto; [lia|].
        destruct w as [w|]; [destruct v as [v|]|]; [apply vspec_both|apply (vspec_nov true hb f (Some w))|apply (vspec_now true hb f)].
      - shorten. apply (case_left true hb f q q _ M HM fuel); auto; lia.
      - splitted. pose proof (case_right true hb f q q _ M HM fuel IH p2 x r v w ca cb e ltac:(lia) Wa Wb) as H.
        destruct w; exact H.
      - splitted. shorten. cbn [app].
        assert (Wa' : wf q (Node (x :: r) v ca)) by (eapply wf_shorten; [exact Wa|destruct s; discriminate]).
        assert (Wb' : wf q (Node (y :: u) w cb)) by (eapply wf_shorten; [exact Wb|destruct s; discriminate]).
        assert (Na : q = true -> t_is_empty (Node (x :: r) v ca) = false) by (intros ->; now apply wf_true_ne in Wa').
        assert (Nb : q = true -> t_is_empty (Node (y :: u) w cb) = false) by (intros ->; now apply wf_true_ne in Wb').
        unfold sort_heads. cbn [length Nat.ltb Nat.leb orb forallb has_head t_prefix andb elift].
        unfold sort_by. cbn [fold_right sort_insert]. unfold head_ord, head_cmp. cbn [t_prefix].
        eapply done_ok; [rewrite (fork_listing true hb f) by auto; cbn [own app]; reflexivity| | |].
        + destruct (kcmp x y) eqn:C.
          * apply EQ in C. congruence.
          * apply wfc_cons. split; [discriminate|]. split; [constructor; [|constructor]; exact C|]. split; [auto|]. split; [auto|].
            apply wfc_single; auto. discriminate.
          * apply (cmp_gt_lt L) in C. apply wfc_cons. split; [discriminate|]. split; [constructor; [|constructor]; exact C|]. split; [auto|]. split; [auto|].
            apply wfc_single; auto. discriminate.
        + rewrite ro_id, (lo_all true). destruct (kcmp x y) eqn:C; [apply EQ in C; congruence| |]; cbn [flat_map]; now rewrite app_nil_r.
        + intros h. now apply fork_head.
    Qed.
  End S_outer.

  Section S_inner.
    Context {V W : Type} (f : mclos E V W) (q qb : bool).
    Notation hb := (fun _ : W => @None V).
    Lemma lo_none (l : list (list K * V)) : flat_map (left_only false) l = [].
    Proof. induction l as [|z l IH]; auto. Qed.
    Lemma einner_spec fuel : forall (a : rtree K V) (b : rtree K W) e, t_size a + t_size b < fuel -> wf q a -> wf qb b ->
      tspec (kcmp := kcmp) false hb f q a b e (einner_with kcmp strat f fuel a b e).
    Proof.
      induction fuel as [|fuel IH]; intros a b e Hf Wa Wb; [lia|].
      pose (M := echildren_with (W := W) kcmp strat (einner_with kcmp strat f fuel) false false NoConverter).
      assert (HM : forall ca cb, wfc q ca -> wfc qb cb ->
        (forall x y e, In x ca -> In y cb -> hd_of x = hd_of y -> rspec (kcmp := kcmp) false hb f (einner_with kcmp strat f fuel) q x y e) ->
        forall e, cres_spec (kcmp := kcmp) false hb f q ca cb e (M ca cb e)).
      { intros ca cb Ca Cb H e0. eapply (echildren_ok L EQ); eauto. intros y Hy. now apply ro_all_none. }
      cbn [einner_with]. fold M. destruct a as [p v ca], b as [p2 w cb]. cbn [t_prefix t_value t_children] in *.
      cases p p2.
      - eapply (case_same false hb f q qb); eauto; [lia|].
        destruct v as [v|]; [destruct w as [w|]|]; [apply vspec_both|apply (vspec_now false hb f)|].
        cbn [eupd_inner]. pose proof (vspec_nov false hb f w e) as H. now destruct w.
      - shorten. apply (case_left false hb f q qb _ M HM fuel); auto; lia.
      - splitted. pose proof (case_right false hb f q qb _ M HM fuel IH p2 x r v w ca cb e ltac:(lia) Wa Wb) as H.
        destruct w; exact H.
      - unfold RadixEffMerge.tspec. rewrite (fork_listing false hb f) by auto. rewrite (ro_all_none hb), lo_none by auto.
        exists (Node [] None []). split; [reflexivity|]. split; [apply wf_node; split; [apply wfc_nil|split; [auto|discriminate]]|].
        split; [now destruct (kcmp x y)|]. intros h _ _. discriminate.
    Qed.

    Lemma eleft_spec fuel : forall (a : rtree K V) (b : rtree K W) e, t_size a + t_size b < fuel -> wf q a -> wf qb b ->
      tspec (kcmp := kcmp) true hb f q a b e (eleft_with kcmp strat f fuel a b e).
    Proof.
      induction fuel as [|fuel IH]; intros a b e Hf Wa Wb; [lia|].
      pose (M := echildren_with (W := W) kcmp strat (eleft_with kcmp strat f fuel) true false NoConverter).
      assert (HM : forall ca cb, wfc q ca -> wfc qb cb ->
        (forall x y e, In x ca -> In y cb -> hd_of x = hd_of y -> rspec (kcmp := kcmp) true hb f (eleft_with kcmp strat f fuel) q x y e) ->
        forall e, cres_spec (kcmp := kcmp) true hb f q ca cb e (M ca cb e)).
      { intros ca cb Ca Cb H e0. eapply (echildren_ok L EQ); eauto. intros y Hy. now apply ro_all_none. }
      cbn [eleft_with]. fold M. destruct a as [p v ca], b as [p2 w cb]. cbn [t_prefix t_value t_children] in *.
      cases p p2.
      - eapply (case_same true hb f q qb); eauto; [lia|].
        destruct w as [w|]; [destruct v as [v|]|]; [apply vspec_both|apply (vspec_nov true hb f (Some w))|apply (vspec_now true hb f)].
      - shorten. apply (case_left true hb f q qb _ M HM fuel); auto; lia.
      - splitted. pose proof (case_right true hb f q qb _ M HM fuel IH p2 x r v w ca cb e ltac:(lia) Wa Wb) as H.
        destruct w; exact H.
      - eapply (done_ok true hb f q _ _ (s ++ x :: r) v ca (flat_map listing ca)).
        + rewrite (fork_listing true hb f), (ro_all_none hb), (lo_all true) by auto. rewrite app_nil_r. cbn [app].
          rewrite <- (listing_node (s ++ x :: r)), listing_app. now destruct (kcmp x y).
        + exact (wf_wfc _ _ Wa).
        + reflexivity.
        + intros h H1 H2. exact H1.
    Qed.
  End S_inner.
End EffComb.

(** The prefix operations keep a tree in order, also when their predicate panics and also when the tree was
    not canonical. *)
From Verif Require Export HeapEffRefine RadixEffPrefix.

Section PruneWO.
  Context {K V W : Type} {kcmp : K -> K -> comparison} (strat : nat -> nat -> bool) {E : Type}.
  Notation A := (rtree K V).
  Notation B := (rtree K W).
  Notation WO := (WO kcmp).
  Notation wfc := (wfc (kcmp := kcmp)).
  Implicit Types (e : E).

  (** in order, and below the same head if there is anything in it *)
  Definition stays (x : A) (y : B) (d : done (A * E)) : Prop :=
    match d with
    | Done (t, _) => WO t /\ (forall h, t_prefix y <> [] -> hd_of x = Some h -> t_is_empty t = false -> hd_of t = Some h)
    | Unwound (t, _) => WO t
    | DoneNoFuel => True
    end.
  Definition prunes_wo (rec : A -> B -> E -> done (A * E)) : Prop := forall x y e, WO x -> WO y -> stays x y (rec x y e).

  Lemma node_wo p v (c : list A) : wfc false c -> WO (Node p v c).
  Proof. intros H. apply wf_node. split; [auto|discriminate]. Qed.
  Lemma wfc_head (x x' : A) l : wfc false (x :: l) -> WO x' -> hd_of x' = hd_of x -> wfc false (x' :: l).
  Proof.
    intros Wl Wx Hh. apply wfc_cons in Wl as (H1 & H2 & H3 & H4 & H5). apply wfc_cons. unfold hd_of in Hh. split; [|split; [|split; [discriminate|auto]]].
    - intros Q. rewrite Q in Hh. now destruct (t_prefix x).
    - rewrite Forall_forall in *. intros z Hz. specialize (H2 z Hz). unfold head_lt in *. destruct (t_prefix x), (t_prefix x'); try easy. cbn in Hh. injection Hh as ->. exact H2.
  Qed.
  Lemma ss_drop {X} (R : X -> X -> Prop) l1 l2 l3 : StronglySorted R (l1 ++ l2 ++ l3) -> StronglySorted R (l1 ++ l3).
  Proof.
    induction l1 as [|x l1 IH]; cbn [app].
    - induction l2 as [|y l2 IH]; cbn [app]; auto. intros H. inversion H; auto.
    - intros H. inversion H; subst. constructor; auto. rewrite !Forall_app in *. tauto.
  Qed.
  Lemma wfc_drop (l1 l2 l3 : list A) : wfc false (l1 ++ l2 ++ l3) -> wfc false (l1 ++ l3).
  Proof.
    intros [H1 H2 H3 H4]. rewrite !Forall_app in *. constructor; [apply Forall_app; tauto|eapply ss_drop; eauto|discriminate|apply Forall_app; tauto].
  Qed.
  Lemma wfc_mid (l : list A) (x x' : A) r : wfc false (l ++ x :: r) -> WO x' -> hd_of x' = hd_of x -> wfc false (l ++ x' :: r).
  Proof.
    intros Wl Wx Hh. apply (wfc_part _ _ _) in Wl as (W1 & W2 & W3). apply wfc_app; auto; [eapply wfc_head; eauto|].
    intros y z Hy [<-|Hz]; [rewrite Hh; apply W3; [auto|now left]|]. apply W3; auto. now right.
  Qed.

  Section Kids.
    Context (rec : A -> B -> E -> done (A * E)) (Hrec : prunes_wo rec).
    Definition kept_ok (s : iprstate A B * E) : Prop :=
      wfc false (bd_tgt (ipr_a (fst s)) ++ bd_src (ipr_a (fst s))) /\ wfc false (ipr_b (fst s)).
    Definition left_ok (s : iprstate A B * E) : Prop := wfc false (bd_tgt (ipr_a (fst s))).
    Lemma wfc_front (l1 l2 : list A) : wfc false (l1 ++ l2) -> wfc false l1.
    Proof. intros H. now apply wfc_part in H. Qed.
    Lemma wfc_skip n (l : list B) : wfc false l -> wfc false (skipn n l).
    Proof. intros H. rewrite <- (firstn_skipn n l) in H. now apply wfc_part in H. Qed.
    Lemma kids_wo_ok ta a b e : wfc false a -> wfc false b ->
      match echildren_with kcmp strat rec ta false NoConverter a b e with
      | Done (c, _) | Unwound (c, _) => wfc false c
      | DoneNoFuel => True
      end.
    Proof.
      intros Wa Wb. unfold echildren_with.
      assert (H : oinv kept_ok left_ok (merge (eop_with kcmp rec ta false NoConverter) strat (ipr_new a b, e))).
      { apply merge_inv.
        - intros s [H _]. eapply wfc_front; exact H.
        - intros [[[t s d] b'] e'] n [H1 H2]. cbn [eop_with mo_from_a fst snd ipr_msm adv_a]. unfold ipr_adv_a, bd_consume. cbn [ipr_a ipr_b bd_tgt bd_src bd_drop fst] in *.
          destruct ta; cbn [quietly oinv]; (split; [|exact H2]); cbn [ipr_a bd_tgt bd_src fst].
          + now rewrite <- app_assoc, firstn_skipn.
          + eapply (wfc_drop t (firstn n s)). now rewrite firstn_skipn.
        - intros [[[t s d] b'] e'] n [H1 H2]. cbn [eop_with mo_from_b fst snd ipr_msm adv_b]. unfold ipr_adv_b. cbn [ipr_a ipr_b bd_tgt bd_src bd_drop fst quietly oinv] in *.
          split; [exact H1|]. cbn [ipr_b fst]. now apply wfc_skip.
        - intros [[[t s d] b'] e'] [H1 H2]. cbn [eop_with mo_coll]. unfold ecoll_with. cbn [ipr_a ipr_b bd_tgt bd_src bd_drop fst] in *.
          destruct s as [|x s]; [eapply wfc_front; exact H1|]. destruct b' as [|y b']; [eapply wfc_front; exact H1|].
          pose proof (wfc_part _ _ _ H1) as (W1 & W2 & _). apply wfc_cons in W2 as (Px & _ & _ & Wx & _).
          pose proof H2 as H2'. apply wfc_cons in H2' as (Py & _ & _ & Wy & Wb').
          specialize (Hrec x y e' Wx Wy). destruct (rec x y e') as [[x' e1]|[x' e1]|]; cbn [stays] in Hrec; [| |exact Logic.I].
          + destruct Hrec as [Wx' Hh]. cbn [ipr_msm adv_a adv_b]. unfold ipr_adv_a, ipr_adv_b, bd_consume. cbn [ipr_a ipr_b bd_tgt bd_src bd_drop].
            destruct (ne_hd x Px) as [h Qh]. destruct (t_is_empty x') eqn:Qe; cbn [negb obind oinv firstn skipn ipr_a ipr_b]; (split; [|exact Wb']); cbn [ipr_a bd_tgt bd_src fst].
            * apply (wfc_drop t [x] s). exact H1.
            * rewrite <- app_assoc. cbn [app]. eapply wfc_mid; [exact H1|exact Wx'|]. rewrite Qh. apply Hh; auto.
          + cbn [oinv]. eapply wfc_front; exact H1.
        - split; cbn; auto. }
      destruct (merge _ _ _) as [[s e']|[s e']|[s e']|]; cbn [oinv to_done] in *; auto; (eapply wfc_front; apply H) || exact H.
    Qed.
    Lemma finish_wo ta (x : A) (y : B) p v a b e : wfc false a -> wfc false b ->
      (forall h, t_prefix y <> [] -> hd_of x = Some h -> hd_error p = Some h) ->
      stays x y (efinish p v (echildren_with kcmp strat rec ta false NoConverter a b e)).
    Proof.
      intros Wa Wb Hp. pose proof (kids_wo_ok ta a b e Wa Wb) as H. destruct (echildren_with kcmp strat rec ta false NoConverter a b e) as [[c e']|[c e']|]; cbn [efinish stays]; auto.
      - split; [now apply unsplit_wf|]. intros h Py Hx Ne. eapply unsplit_hd; eauto.
      - now apply node_wo.
    Qed.
  End Kids.

  Lemma same_wo (x : A) (y : B) e : WO x -> stays x y (Done (t_unsplit x, e)).
  Proof.
    intros Wx. destruct x as [p v c]. pose proof (wf_wfc _ _ Wx) as Wc. split; [now apply unsplit_wf|]. intros h _ Hx Ne. eapply unsplit_hd; eauto.
  Qed.
  Lemma clear_wo (x : A) (y : B) p e : stays x y (Done (t_unsplit (Node p None []), e)).
  Proof. split; [apply unsplit_wf, wfc_nil|]. intros h _ _ Ne. cbn in Ne. discriminate. Qed.
  Lemma hit_wo (f : clos E W bool) (x : A) (y : B) w e k : WO x -> (forall b e, stays x y (k b e)) -> stays x y (ehit f x w e k).
  Proof. intros Wx H. unfold ehit. destruct w as [w|]; auto. destruct (f e w) as [e' [b|]]; auto. Qed.
  Lemma firstn_hd n (p : list K) h : 0 < n -> hd_error p = Some h -> hd_error (firstn n p) = Some h.
  Proof. destruct n; [lia|]. destruct p; auto. Qed.

  Ltac begin Wx Wy := pose proof (wf_wfc _ _ Wx) as Cx; pose proof (wf_wfc _ _ Wy) as Cy.
  Lemma eremove_wo (f : clos E W bool) fuel : prunes_wo (eremove_with kcmp strat f fuel).
  Proof.
    induction fuel as [|fuel IH]; intros x y e Wx Wy; [exact Logic.I|]. cbn [eremove_with].
    pose proof (wf_wfc _ _ Wx) as Cx. pose proof (wf_wfc _ _ Wy) as Cy. destruct x as [p v c], y as [p2 w c2]. cbn [t_prefix t_value t_children] in *.
    pose proof (cp_le kcmp p p2) as Hn. set (n := common_prefix kcmp p p2) in *.
    destruct ((n =? length p) && (n =? length p2)) eqn:Q1; [|destruct (n =? length p2) eqn:Q3; [|destruct (n =? length p) eqn:Q2]].
    - apply hit_wo; auto. intros [|] e1; [apply clear_wo|]. apply finish_wo; auto.
    - rewrite andb_true_r in Q1. apply Nat.eqb_neq in Q1. apply Nat.eqb_eq in Q3. apply hit_wo; auto. intros [|] e1; [apply clear_wo|].
      unfold t_split. replace (n <? length p) with true by (symmetry; apply Nat.ltb_lt; lia). cbn [elift t_prefix t_value t_children].
      apply finish_wo; auto.
      + apply wfc_single; [|discriminate|now apply node_wo]. cbn [t_prefix]. intros Q. apply (f_equal (@length K)) in Q. rewrite skipn_length in Q. cbn in Q. lia.
      + intros h Py Hx. apply firstn_hd; auto. cbn [t_prefix] in Py. destruct p2; [easy|cbn in Q3; lia].
    - apply Nat.eqb_neq in Q3. destruct (mat_wo kcmp (Node p2 w c2) n Wy) as (u & -> & Wu & Pu); [cbn [t_prefix]; lia|]. cbn [elift].
      apply finish_wo; auto. apply wfc_single; auto. discriminate.
    - now apply same_wo.
  Qed.
  Lemma eretain_wo (f : clos E W bool) fuel : prunes_wo (eretain_with kcmp strat f fuel).
  Proof.
    induction fuel as [|fuel IH]; intros x y e Wx Wy; [exact Logic.I|]. cbn [eretain_with].
    pose proof (wf_wfc _ _ Wx) as Cx. pose proof (wf_wfc _ _ Wy) as Cy. destruct x as [p v c], y as [p2 w c2]. cbn [t_prefix t_value t_children] in *.
    pose proof (cp_le kcmp p p2) as Hn. set (n := common_prefix kcmp p p2) in *.
    destruct ((n =? length p) && (n =? length p2)) eqn:Q1; [|destruct (n =? length p2) eqn:Q3; [|destruct (n =? length p) eqn:Q2]].
    - apply hit_wo; auto. intros [|] e1; [now apply same_wo|]. apply finish_wo; auto.
    - rewrite andb_true_r in Q1. apply Nat.eqb_neq in Q1. apply Nat.eqb_eq in Q3. apply hit_wo; auto. intros [|] e1; [now apply same_wo|].
      unfold t_split. replace (n <? length p) with true by (symmetry; apply Nat.ltb_lt; lia). cbn [elift t_prefix t_value t_children].
      apply finish_wo; auto.
      + apply wfc_single; [|discriminate|now apply node_wo]. cbn [t_prefix]. intros Q. apply (f_equal (@length K)) in Q. rewrite skipn_length in Q. cbn in Q. lia.
      + intros h Py Hx. apply firstn_hd; auto. cbn [t_prefix] in Py. destruct p2; [easy|cbn in Q3; lia].
    - apply Nat.eqb_neq in Q3. destruct (mat_wo kcmp (Node p2 w c2) n Wy) as (u & -> & Wu & Pu); [cbn [t_prefix]; lia|]. cbn [elift].
      apply finish_wo; auto. apply wfc_single; auto. discriminate.
    - apply clear_wo.
  Qed.
End PruneWO.

(** They do not run out of fuel. *)
Section PruneFuel.
  Context {K V W : Type} {kcmp : K -> K -> comparison} (L : OrdLaws kcmp) (strat : nat -> nat -> bool) {E : Type}.
  Notation A := (rtree K V).
  Notation B := (rtree K W).
  Notation WO := (WO kcmp).
  Notation wfc := (wfc (kcmp := kcmp)).
  Notation hord := (hord (kcmp := kcmp)).
  Implicit Types (e : E).

  Lemma run_fuel (rec : A -> B -> E -> done (A * E)) ta a b evs : ok_sched (kcmp := hord) hd_of hd_of a b evs ->
    (forall x y e, In x a -> In y b -> rec x y e <> DoneNoFuel) ->
    forall tgt drop e, run (eop_with kcmp rec ta false NoConverter) evs (MkIpr (MkB tgt a drop) b, e) <> NoFuel.
  Proof.
    induction 1 as [|a1 a2 b evs Hne Hlt H IH|a b1 b2 evs Hne Hgt H IH|x a y b evs Hxy H IH]; intros Hr tgt drop e; cbn [run step].
    - discriminate.
    - cbn [eop_with mo_from_a adv_a ipr_msm fst snd]. unfold ipr_adv_a. cbn [quietly obind].
      unfold bd_consume. cbn [ipr_a bd_src bd_tgt bd_drop ipr_b]. rewrite firstn_app_exact, skipn_app_exact.
      destruct ta; apply IH; intros; apply Hr; auto; apply in_or_app; auto.
    - cbn [eop_with mo_from_b adv_b ipr_msm fst snd]. unfold ipr_adv_b. cbn [quietly obind ipr_a ipr_b]. rewrite skipn_app_exact.
      apply IH; intros; apply Hr; auto; apply in_or_app; auto.
    - cbn [eop_with mo_coll]. unfold ecoll_with. cbn [ipr_a ipr_b bd_src].
      specialize (Hr x y e (or_introl eq_refl) (or_introl eq_refl)) as Hx. destruct (rec x y e) as [[t e']|[t e']|]; [|discriminate|congruence].
      cbn [adv_a adv_b ipr_msm]. unfold ipr_adv_a. cbn [obind]. unfold ipr_adv_b. cbn [ipr_a ipr_b]. unfold bd_consume. cbn [bd_src bd_tgt bd_drop skipn].
      destruct (t_is_empty t); cbn [negb firstn]; apply IH; intros; apply Hr; now right.
  Qed.
  Lemma kids_fuel (rec : A -> B -> E -> done (A * E)) ta a b e : wfc false a -> wfc false b ->
    (forall x y e, In x a -> In y b -> rec x y e <> DoneNoFuel) -> echildren_with kcmp strat rec ta false NoConverter a b e <> DoneNoFuel.
  Proof.
    intros Wa Wb Hr. unfold echildren_with.
    destruct (merge_sched (hord_laws L) hd_of hd_of (eop_with kcmp rec ta false NoConverter) (oe_advancing ta (fun _ => @None V) rec false NoConverter false [] (fun y (H : In y []) => match H with end)) strat (ipr_new a b, e)) as (evs & Ok & R).
    - exact (wfc_ksorted _ _ Wa).
    - exact (wfc_ksorted _ _ Wb).
    - intros x y Hx Hy. apply head_cmp_hord; [apply (wfc_In _ _ _ Wa Hx)|apply (wfc_In _ _ _ Wb Hy)].
    - rewrite R. cbn [eop_with mo_a mo_b fst ipr_new ipr_a ipr_b bd_new bd_src] in Ok.
      pose proof (run_fuel rec ta a b evs Ok Hr [] [] e) as H. change (ipr_new a b, e) with (MkIpr (MkB [] a []) b, e).
      destruct (run _ _ _); cbn [to_done]; easy.
  Qed.
  Lemma finish_fuel p v (r : done (list A * E)) : r <> DoneNoFuel -> efinish p v r <> DoneNoFuel.
  Proof. now destruct r as [[c e]|[c e]|]. Qed.
  Lemma hit_fuel (f : clos E W bool) (x : A) w e k : (forall b e, k b e <> DoneNoFuel) -> ehit f x w e k <> DoneNoFuel.
  Proof. intros H. unfold ehit. destruct w as [w|]; auto. destruct (f e w) as [e' [b|]]; auto. discriminate. Qed.

  Definition enough (rec : A -> B -> E -> done (A * E)) (n : nat) : Prop :=
    forall x y e, t_size x + t_size y < n -> WO x -> WO y -> rec x y e <> DoneNoFuel.
  Lemma kids_case_fuel rec n ta p v p2 w a b v1 e : enough rec n -> t_size (Node p v a) + t_size (Node p2 w b) < S n -> wfc false a -> wfc false b ->
    efinish p v1 (echildren_with kcmp strat rec ta false NoConverter a b e) <> DoneNoFuel.
  Proof.
    intros H Hs Wa Wb. apply finish_fuel, kids_fuel; auto. intros x y e1 Hx Hy.
    pose proof (size_children (Node p v a) x Hx). pose proof (size_children (Node p2 w b) y Hy).
    apply H; [lia|apply (wfc_In _ _ _ Wa Hx)|apply (wfc_In _ _ _ Wb Hy)].
  Qed.
  Lemma split_case_fuel rec n ta p v p2 w a b k e : enough rec n -> t_size (Node p v a) + t_size (Node p2 w b) < S n -> wfc false a -> wfc false b -> k < length p ->
    elift (Node p v a) e (t_split (Node p v a) k) (fun self => efinish (t_prefix self) (t_value self) (echildren_with kcmp strat rec ta false NoConverter (t_children self) b e)) <> DoneNoFuel.
  Proof.
    intros H Hs Wa Wb Hk. unfold t_split. replace (k <? length p) with true by (symmetry; apply Nat.ltb_lt; lia). cbn [elift t_prefix t_value t_children].
    apply finish_fuel, kids_fuel; auto.
    - apply wfc_single; [|discriminate|now apply node_wo]. cbn [t_prefix]. intros Q. apply (f_equal (@length K)) in Q. rewrite skipn_length in Q. cbn in Q. lia.
    - intros x y e1 [<-|[]] Hy. pose proof (size_children (Node p2 w b) y Hy). apply H; [cbn [t_size] in *; lia|now apply node_wo|apply (wfc_In _ _ _ Wb Hy)].
  Qed.
  Lemma mats_case_fuel rec n ta p v p2 w a b v1 x0 k e : enough rec n -> t_size (Node p v a) + t_size (Node p2 w b) < S n -> wfc false a -> WO (Node p2 w b) -> k < length p2 ->
    elift x0 e (mat_short (Node p2 w b) k) (fun that => efinish p v1 (echildren_with kcmp strat rec ta false NoConverter a [that] e)) <> DoneNoFuel.
  Proof.
    intros H Hs Wa Wb Hk. destruct (mat_wo kcmp (Node p2 w b) k Wb) as (u & Qu & Wu & Pu); [exact Hk|]. rewrite Qu. cbn [elift].
    apply finish_fuel, kids_fuel; auto; [apply wfc_single; auto; discriminate|]. intros x y e1 Hx [<-|[]].
    pose proof (size_children (Node p v a) x Hx). apply H; [rewrite (mat_short_size _ _ _ Qu); lia|apply (wfc_In _ _ _ Wa Hx)|auto].
  Qed.
  Lemma eremove_fuel (f : clos E W bool) n : enough (eremove_with kcmp strat f n) n.
  Proof.
    induction n as [|n IH]; intros x y e Hs Wx Wy; [lia|]. cbn [eremove_with].
    pose proof (wf_wfc _ _ Wx) as Cx. pose proof (wf_wfc _ _ Wy) as Cy. destruct x as [p v c], y as [p2 w c2]. cbn [t_prefix t_value t_children] in *.
    pose proof (cp_le kcmp p p2) as Hn. set (k := common_prefix kcmp p p2) in *.
    destruct ((k =? length p) && (k =? length p2)) eqn:Q1; [|destruct (k =? length p2) eqn:Q3; [|destruct (k =? length p) eqn:Q2]].
    - apply hit_fuel. intros [|] e1; [discriminate|]. eapply kids_case_fuel; eauto.
    - rewrite andb_true_r in Q1. apply Nat.eqb_neq in Q1. apply hit_fuel. intros [|] e1; [discriminate|]. eapply split_case_fuel; eauto. lia.
    - apply Nat.eqb_neq in Q3. eapply mats_case_fuel; eauto. lia.
    - discriminate.
  Qed.
  Lemma eretain_fuel (f : clos E W bool) n : enough (eretain_with kcmp strat f n) n.
  Proof.
    induction n as [|n IH]; intros x y e Hs Wx Wy; [lia|]. cbn [eretain_with].
    pose proof (wf_wfc _ _ Wx) as Cx. pose proof (wf_wfc _ _ Wy) as Cy. destruct x as [p v c], y as [p2 w c2]. cbn [t_prefix t_value t_children] in *.
    pose proof (cp_le kcmp p p2) as Hn. set (k := common_prefix kcmp p p2) in *.
    destruct ((k =? length p) && (k =? length p2)) eqn:Q1; [|destruct (k =? length p2) eqn:Q3; [|destruct (k =? length p) eqn:Q2]].
    - apply hit_fuel. intros [|] e1; [discriminate|]. eapply kids_case_fuel; eauto.
    - rewrite andb_true_r in Q1. apply Nat.eqb_neq in Q1. apply hit_fuel. intros [|] e1; [discriminate|]. eapply split_case_fuel; eauto. lia.
    - apply Nat.eqb_neq in Q3. eapply mats_case_fuel; eauto. lia.
    - discriminate.
  Qed.
End PruneFuel.

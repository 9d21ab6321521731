(** intersects and is_subset of radix trees. *)
From Verif Require Export RadixFind.

Section Pred.
  Context {K : Type} {kcmp : K -> K -> comparison} (L : OrdLaws kcmp) (E : OrdEq kcmp).
  Context (strat : nat -> nat -> bool).
  Notation strip := (strip kcmp).
  Notation lk := (lk kcmp).
  Notation wf := (wf kcmp).
  Notation wfc := (wfc (kcmp := kcmp)).
  Notation lkc := (lkc (kcmp := kcmp)).
  Notation child := (child (kcmp := kcmp)).
  Notation hord := (hord (kcmp := kcmp)).

  Section VW.
    Context {V W : Type}.
    Notation A := (rtree K V).
    Notation B := (rtree K W).

    Lemma bsadv_a (s : bstate A B) n : n <= length (bs_a s) ->
      bs_adv_a s n false = Cont (MkBs (skipn n (bs_a s)) (bs_b s) (bs_r s)).
    Proof. intros H. unfold bs_adv_a, si_drop_front. apply Nat.leb_le in H. now rewrite H. Qed.
    Lemma bsadv_b (s : bstate A B) n : n <= length (bs_b s) ->
      bs_adv_b s n false = Cont (MkBs (bs_a s) (skipn n (bs_b s)) (bs_r s)).
    Proof. intros H. unfold bs_adv_b, si_drop_front. apply Nat.leb_le in H. now rewrite H. Qed.

    Section Merge.
      Context (rec : A -> B -> res bool) (ta : bool) (ca : list A) (cb : list B).
      Hypothesis Wa : wfc false ca.
      Hypothesis Wb : wfc false cb.
      Hypothesis Hrec : forall x y, In x ca -> In y cb -> hd_of x = hd_of y -> exists r, rec x y = Ok r.
      Notation O := (op_bool kcmp rec ta).
      Let ha (_ : A) : option unit := if ta then Some tt else None.
      Let hb (_ : B) : option unit := None.
      Let hc (x : A) (y : B) : option unit := match rec x y with Ok true => Some tt | _ => None end.
      Notation ref := (tape_ref (kcmp := hord) hd_of hd_of ha hb hc).

      Lemma ob_coll (s : bstate A B) x a y b : bs_a s = x :: a -> bs_b s = y :: b ->
        mo_coll O s = match rec x y with
                      | Ok true => Stop (MkBs (bs_a s) (bs_b s) true)
                      | Ok false => Cont (MkBs a b (bs_r s))
                      | Panicked => Panic s
                      | OutOfFuel => NoFuel
                      end.
      Proof.
        intros Ha Hb. cbn [op_bool mo_coll]. unfold coll_bool. rewrite Ha, Hb.
        destruct (rec x y) as [[|]| |]; auto.
        - cbn. now rewrite Ha, Hb.
        - cbn [adv_a adv_b bs_msm]. rewrite bsadv_a by (rewrite Ha; simpl; lia). cbn [obind].
          rewrite bsadv_b by (cbn; rewrite Hb; simpl; lia). cbn. now rewrite Ha, Hb.
      Qed.
      Lemma ob_advancing : advancing O.
      Proof.
        constructor.
        - intros s n s' Hn. cbn [op_bool mo_from_a adv_a bs_msm mo_a mo_b] in *. destruct ta; [discriminate|]. rewrite bsadv_a by assumption.
          intros [= <-]. auto.
        - intros s n s' Hn. cbn [op_bool mo_from_b adv_b bs_msm mo_a mo_b] in *. rewrite bsadv_b by assumption. intros [= <-]. auto.
        - intros s x a y b s' Ha Hb. rewrite (ob_coll s x a y b) by assumption.
          destruct (rec x y) as [[|]| |]; try discriminate. intros [= <-]. auto.
      Qed.
      Definition some (l : list unit) : bool := match l with [] => false | _ => true end.
      Lemma omap_none {X} (l : list X) : omap (fun _ : X => @None unit) l = [].
      Proof. induction l; auto. Qed.

      Lemma ob_run a b evs : ok_sched (kcmp := hord) hd_of hd_of a b evs -> incl a ca -> incl b cb ->
        forall s, bs_a s = a -> bs_b s = b -> bs_r s = false ->
        exists s', (run O evs s = Cont s' \/ run O evs s = Stop s') /\ bs_r s' = some (ref a b).
      Proof.
        induction 1 as [|a0 a1 b evs Hne Hlt H IH|a b0 b1 evs Hne Hgt H IH|x a y b evs Q H IH];
          intros Ia Ib s Ha Hb Hf; cbn [run step].
        - exists s. split; [now left|]. assumption.
        - rewrite tape_ref_app_a by assumption. cbn [op_bool mo_from_a adv_a bs_msm]. unfold ha at 1. destruct ta eqn:Qta.
          + cbn. eexists. split; [right; reflexivity|]. destruct a0; [congruence|reflexivity].
          + rewrite bsadv_a by (rewrite Ha, app_length; lia). cbn [obind]. rewrite omap_none. cbn [app].
            apply IH; cbn; auto.
            * intros z Hz. apply Ia, in_or_app. now right.
            * now rewrite Ha, skipn_app_exact.
        - rewrite tape_ref_app_b by assumption. cbn [op_bool mo_from_b adv_b bs_msm]. unfold hb at 1.
          rewrite omap_none. cbn [app].
          rewrite bsadv_b by (rewrite Hb, app_length; lia). cbn [obind].
          apply IH; cbn; auto.
          + intros z Hz. apply Ib, in_or_app. now right.
          + now rewrite Hb, skipn_app_exact.
        - rewrite tape_ref_cons, Q. rewrite (ob_coll s x a y b) by assumption.
          destruct (Hrec x y) as [r Hr]; [apply Ia; now left|apply Ib; now left|now apply (hord_eq E)|].
          unfold hc at 1. rewrite Hr. destruct r.
          + cbn. eexists. split; [right; reflexivity|]. reflexivity.
          + cbn [obind o2l app]. apply IH; auto; intros z Hz; [apply Ia|apply Ib]; now right.
      Qed.

      Lemma ob_merge : exists r, bs_merge strat O ca cb = Ok r /\
        (r = true <-> (exists x y, In x ca /\ In y cb /\ hd_of x = hd_of y /\ rec x y = Ok true) \/
                      (ta = true /\ exists x, In x ca /\ forall y, In y cb -> hd_of x <> hd_of y)).
      Proof.
        pose proof (wfc_ksorted _ _ Wa) as Sa. pose proof (wfc_ksorted _ _ Wb) as Sb.
        exists (some (ref ca cb)). split.
        - unfold bs_merge.
          destruct (merge_sched (hord_laws L) hd_of hd_of O ob_advancing strat (bs_new ca cb)) as (evs & Ok & Q); auto.
          { intros x y Hx Hy. cbn [op_bool mo_cmp]. apply head_cmp_hord.
            - now apply (wfc_In _ _ _ Wa).
            - now apply (wfc_In _ _ _ Wb). }
          rewrite Q. destruct (ob_run ca cb evs Ok (incl_refl _) (incl_refl _) (bs_new ca cb) eq_refl eq_refl eq_refl)
            as (s' & [R|R] & Hr); rewrite R; cbn; now rewrite Hr.
        - assert (Hs : some (ref ca cb) = true <-> In tt (ref ca cb)).
          { destruct (ref ca cb) as [|[] l]; simpl; split; auto; try discriminate; intros []. }
          rewrite Hs, (tape_ref_In (hord_laws L) hd_of hd_of ha hb hc ca cb tt Sa Sb). split.
          + intros [(x & Hx & Hn & Q)|[(y & _ & _ & Q)|(x & y & Hx & Hy & Q & Hr)]].
            * right. unfold ha in Q. destruct ta; [|discriminate]. split; auto. exists x. split; auto.
              intros y Hy Z. apply (Hn y Hy). now apply (hord_eq E).
            * discriminate.
            * left. exists x, y. apply (hord_eq E) in Q. repeat split; auto. unfold hc in Hr.
              destruct (rec x y) as [[|]| |]; congruence.
          + intros [(x & y & Hx & Hy & Q & Hr)|(Q & x & Hx & Hn)].
            * right. right. exists x, y. repeat split; auto; [now apply (hord_eq E)|]. unfold hc. now rewrite Hr.
            * left. exists x. repeat split; auto; [|unfold ha; now rewrite Q].
              intros y Hy Z. apply (Hn y Hy). now apply (hord_eq E).
      Qed.
    End Merge.

    Lemma any_ok {X} (p : X -> res bool) l : (forall x, In x l -> exists b, p x = Ok b) ->
      exists b, any_res p l = Ok b /\ (b = true <-> exists x, In x l /\ p x = Ok true).
    Proof.
      induction l as [|x l IH]; intros H.
      - exists false. split; auto. split; [discriminate|]. intros (? & [] & _).
      - destruct (H x (or_introl eq_refl)) as [b Hb]. cbn [any_res]. rewrite Hb. cbn [rbind]. destruct b.
        + exists true. split; auto. split; auto. intros _. exists x. split; auto. now left.
        + destruct IH as (b & Q & I); [intros; apply H; now right|]. exists b. split; auto. rewrite I. split.
          * intros (y & Hy & Q'). exists y. split; auto. now right.
          * intros (y & [<-|Hy] & Q'); [congruence|eauto].
    Qed.
    Lemma all_ok {X} (p : X -> res bool) l : (forall x, In x l -> exists b, p x = Ok b) ->
      exists b, all_res p l = Ok b /\ (b = true <-> forall x, In x l -> p x = Ok true).
    Proof.
      induction l as [|x l IH]; intros H.
      - exists true. split; auto. split; auto. intros _ ? [].
      - destruct (H x (or_introl eq_refl)) as [b Hb]. cbn [all_res]. rewrite Hb. cbn [rbind]. destruct b.
        + destruct IH as (b & Q & I); [intros; apply H; now right|]. exists b. split; auto. rewrite I. split.
          * intros H' y [<-|Hy]; auto.
          * intros H' y Hy. apply H'. now right.
        + exists false. split; auto. split; [discriminate|]. intros H'. rewrite H' in Hb by now left. congruence.
    Qed.
  End VW.

  (** keys of a tree seen through its children *)
  Lemma lk_child {V} q p (v : option V) cs k : wfc q cs ->
    forall c, lk (Node p v cs) (p ++ c :: k) = lko (kcmp := kcmp) (child c cs) (c :: k).
  Proof. intros Wc c. rewrite lk_node, (strip_app E). now rewrite (lkc_child E q). Qed.
  Lemma lk_here {V} p (v : option V) cs : lk (Node p v cs) p = v.
  Proof. rewrite lk_node, (strip_self E). reflexivity. Qed.
  Lemma lk_prefix {V} p (v : option V) cs k w : lk (Node p v cs) k = Some w -> exists s, k = p ++ s.
  Proof.
    rewrite lk_strip. destruct (strip p k) as [s|] eqn:S; [|discriminate]. apply (strip_iff E) in S. eauto.
  Qed.
  Lemma lk_shift {V} p r (v : option V) cs s : lk (Node (p ++ r) v cs) (p ++ s) = lk (Node r v cs) s.
  Proof. rewrite lk_strip, strip_app_l, (strip_app E), (lk_strip r). reflexivity. Qed.
  Lemma lk_head {V} (t : rtree K V) h k w : hd_of t = Some h -> lk t k = Some w -> exists s, k = h :: s.
  Proof.
    destruct t as [[|x p] v cs]; [discriminate|]. unfold hd_of. cbn [t_prefix hd_error]. intros [= ->] H.
    apply lk_prefix in H as [s ->]. simpl. eauto.
  Qed.
  Lemma child_lk {V} q (cs : list (rtree K V)) t k w : wfc q cs -> In t cs -> lk t k = Some w ->
    exists c s, k = c :: s /\ child c cs = Some t.
  Proof.
    intros Wc Ht H. destruct (wfc_In _ _ _ Wc Ht) as (Hp & _ & _). destruct (ne_hd t Hp) as [h Hh].
    destruct (lk_head t h k w Hh H) as [s ->]. exists h, s. split; auto. apply (child_iff E); auto.
    eapply wfc_ksorted; eauto.
  Qed.
  Lemma node_eta {V} (t : rtree K V) : Node (t_prefix t) (t_value t) (t_children t) = t.
  Proof. now destruct t. Qed.

  Ltac cases p p2 :=
    destruct (cp_cases E p p2) as [<- Hn|x r0 -> Hn|x r0 -> Hn|s x r0 y u -> -> Hxy Hn]; rewrite Hn; clear Hn;
    rewrite ?Nat.eqb_refl, ?app_cons_length; cbn [andb].

  Section Inter.
    Context {V W : Type}.
    Definition common (a : rtree K V) (b : rtree K W) : Prop := exists k v w, lk a k = Some v /\ lk b k = Some w.

    Lemma intersects0_ok fuel : forall (l : rtree K V) lp (r : rtree K W) rp, t_size l + t_size r < fuel ->
      wf false l -> wf false r ->
      exists b, intersects0 kcmp strat fuel l lp r rp = Ok b /\
        (b = true <-> common (Node lp (t_value l) (t_children l)) (Node rp (t_value r) (t_children r))).
    Proof.
      induction fuel as [|fuel IH]; intros l lp r rp Hf Wl Wr; [lia|].
      pose proof (wf_wfc _ _ Wl) as Cl. pose proof (wf_wfc _ _ Wr) as Cr.
      cbn [intersects0].
      pose proof (size_children l) as Sl. pose proof (size_children r) as Sr.
      cases lp rp.
      - destruct (match t_value l, t_value r with Some _, Some _ => true | _, _ => false end) eqn:Q.
        + exists true. split; auto. split; auto. intros _.
          destruct (t_value l) as [v|]; [|discriminate]. destruct (t_value r) as [w|]; [|discriminate].
          exists lp, v, w. now rewrite !lk_here.
        + assert (Hrec : forall x y, In x (t_children l) -> In y (t_children r) ->
            exists b, intersects0 kcmp strat fuel x (t_prefix x) y (t_prefix y) = Ok b /\ (b = true <-> common x y)).
          { intros x y Hx Hy. destruct (IH x (t_prefix x) y (t_prefix y)) as (b & Hb & I).
            - apply Sl in Hx. apply Sr in Hy. lia.
            - now apply (wfc_In _ _ _ Cl).
            - now apply (wfc_In _ _ _ Cr).
            - rewrite !node_eta in I. eauto. }
          destruct (ob_merge (fun a b => intersects0 kcmp strat fuel a (t_prefix a) b (t_prefix b)) false
                      (t_children l) (t_children r) Cl Cr) as (b & Hb & I).
          { intros x y Hx Hy _. destruct (Hrec x y Hx Hy) as (b & Hb & _). eauto. }
          exists b. split; auto. rewrite I. split.
          * intros [(x & y & Hx & Hy & Hh & Hi)|[Z _]]; [|discriminate].
            destruct (Hrec x y Hx Hy) as (b' & Hb' & I'). rewrite Hi in Hb'. injection Hb' as <-.
            destruct (proj1 I' eq_refl) as (k & v & w & H1 & H2).
            destruct (child_lk false _ x k v Cl Hx H1) as (c & s & -> & Cx).
            destruct (child_lk false _ y (c :: s) w Cr Hy H2) as (c' & s' & [= <- <-] & Cy).
            exists (lp ++ c :: s), v, w. rewrite (lk_child false), Cx by auto. now rewrite (lk_child false), Cy by auto.
          * intros (k & v & w & H1 & H2). left. destruct (lk_prefix _ _ _ _ _ H1) as [[|c s] ->].
            { rewrite app_nil_r, !lk_here in *. rewrite H1, H2 in Q. discriminate. }
            rewrite (lk_child false) in H1 by auto. rewrite (lk_child false) in H2 by auto.
            destruct (child c (t_children l)) as [x|] eqn:Cx; [|discriminate].
            destruct (child c (t_children r)) as [y|] eqn:Cy; [|discriminate]. cbn [lko] in *.
            apply (child_Some_In E) in Cx as [Hx Hhx]. apply (child_Some_In E) in Cy as [Hy Hhy].
            exists x, y. repeat split; auto; [congruence|].
            destruct (Hrec x y Hx Hy) as (b' & Hb' & I'). rewrite Hb'. f_equal. apply I'. exists (c :: s), v, w. auto.
      - rewrite skipn_app_exact.
        assert (Hrec : forall c, In c (t_children l) ->
            exists b, intersects0 kcmp strat fuel c (t_prefix c) r (x :: r0) = Ok b /\
              (b = true <-> common c (Node (x :: r0) (t_value r) (t_children r)))).
        { intros c Hc. destruct (IH c (t_prefix c) r (x :: r0)) as (b & Hb & I); auto.
          - apply Sl in Hc. lia.
          - now apply (wfc_In _ _ _ Cl).
          - rewrite node_eta in I. eauto. }
        destruct (any_ok (fun lc => intersects0 kcmp strat fuel lc (t_prefix lc) r (x :: r0)) (t_children l)) as (b & Hb & I).
        { intros c Hc. destruct (Hrec c Hc) as (b & Hb & _). eauto. }
        exists b. split; auto. rewrite I. split.
        + intros (c & Hc & Hi). destruct (Hrec c Hc) as (b' & Hb' & I'). rewrite Hi in Hb'. injection Hb' as <-.
          destruct (proj1 I' eq_refl) as (k & v & w & H1 & H2).
          destruct (child_lk false _ c k v Cl Hc H1) as (h & s & -> & Cx).
          exists (lp ++ h :: s), v, w. rewrite (lk_child false), Cx by auto. split; auto. now rewrite lk_shift.
        + intros (k & v & w & H1 & H2). destruct (lk_prefix _ _ _ _ _ H2) as [s ->].
          rewrite <- app_assoc in *. cbn [app] in *. rewrite lk_shift in H2. rewrite (lk_child false) in H1 by auto.
          destruct (child x (t_children l)) as [c|] eqn:Cx; [|discriminate]. cbn [lko] in *.
          apply (child_Some_In E) in Cx as [Hx Hhx]. exists c. split; auto.
          destruct (Hrec c Hx) as (b' & Hb' & I'). rewrite Hb'. f_equal. apply I'. exists (x :: r0 ++ s), v, w. auto.
      - rewrite skipn_app_exact.
        assert (Hrec : forall c, In c (t_children r) ->
            exists b, intersects0 kcmp strat fuel l (x :: r0) c (t_prefix c) = Ok b /\
              (b = true <-> common (Node (x :: r0) (t_value l) (t_children l)) c)).
        { intros c Hc. destruct (IH l (x :: r0) c (t_prefix c)) as (b & Hb & I); auto.
          - apply Sr in Hc. lia.
          - now apply (wfc_In _ _ _ Cr).
          - rewrite node_eta in I. eauto. }
        destruct (any_ok (fun rc => intersects0 kcmp strat fuel l (x :: r0) rc (t_prefix rc)) (t_children r)) as (b & Hb & I).
        { intros c Hc. destruct (Hrec c Hc) as (b & Hb & _). eauto. }
        exists b. split; auto. rewrite I. split.
        + intros (c & Hc & Hi). destruct (Hrec c Hc) as (b' & Hb' & I'). rewrite Hi in Hb'. injection Hb' as <-.
          destruct (proj1 I' eq_refl) as (k & v & w & H1 & H2).
          destruct (child_lk false _ c k w Cr Hc H2) as (h & s & -> & Cx).
          exists (rp ++ h :: s), v, w. rewrite (lk_child false rp), Cx by auto. split; auto. now rewrite lk_shift.
        + intros (k & v & w & H1 & H2). destruct (lk_prefix _ _ _ _ _ H1) as [s ->].
          rewrite <- app_assoc in *. cbn [app] in *. rewrite lk_shift in H1. rewrite (lk_child false) in H2 by auto.
          destruct (child x (t_children r)) as [c|] eqn:Cx; [|discriminate]. cbn [lko] in *.
          apply (child_Some_In E) in Cx as [Hx Hhx]. exists c. split; auto.
          destruct (Hrec c Hx) as (b' & Hb' & I'). rewrite Hb'. f_equal. apply I'. exists (x :: r0 ++ s), v, w. auto.
      - exists false. split; auto. split; [discriminate|]. intros (k & v & w & H1 & H2).
        rewrite lk_strip in H1. rewrite lk_strip in H2. destruct (fork_strip E s x r0 y u k Hxy) as [Z|Z]; rewrite Z in *; discriminate.
    Qed.
  End Inter.

  (** a canonical tree that is not empty holds a key *)
  Lemma canon_key {V} (t : rtree K V) : wf true t -> t_is_empty t = false -> exists k v, lk t k = Some v.
  Proof.
    induction t as [p v cs IH] using rtree_ind'. intros W H. pose proof (wf_wfc _ _ W) as C. cbn [t_children] in C.
    destruct v as [v|]; [exists p, v; now rewrite lk_here|]. destruct cs as [|c cs]; [discriminate|].
    inversion IH as [|? ? Hc _]; subst. destruct (wfc_In _ _ c C (or_introl eq_refl)) as (Hp & Wc & Hq).
    destruct (Hc Wc (Hq eq_refl)) as (k & v & Hk). destruct (child_lk true _ c k v C (or_introl eq_refl) Hk) as (h & s & -> & Cx).
    exists (p ++ h :: s), v. rewrite (lk_child true) by auto. now rewrite Cx.
  Qed.

  Section Subset.
    Context {V W : Type}.
    Definition keys_incl (a : rtree K V) (b : rtree K W) : Prop := forall k v, lk a k = Some v -> exists w, lk b k = Some w.

    Lemma is_subset0_ok fuel : forall (l : rtree K V) lp (r : rtree K W) rp, t_size l + t_size r < fuel ->
      wf true (Node lp (t_value l) (t_children l)) -> wf false r ->
      exists b, is_subset0 kcmp strat fuel l lp r rp = Ok b /\
        (b = true <-> keys_incl (Node lp (t_value l) (t_children l)) (Node rp (t_value r) (t_children r))).
    Proof.
      induction fuel as [|fuel IH]; intros l lp r rp Hf Wl Wr; [lia|].
      pose proof (wf_wfc _ _ Wl) as Cl. cbn [t_children] in Cl. pose proof (wf_wfc _ _ Wr) as Cr.
      assert (Cl0 : wfc false (t_children l)) by (apply wf_any in Wl; now apply wf_wfc in Wl).
      cbn [is_subset0].
      pose proof (size_children l) as Sl. pose proof (size_children r) as Sr.
      cases lp rp.
      - destruct (match t_value l, t_value r with None, _ => true | _, Some _ => true | _, _ => false end) eqn:Q.
        + assert (Hrec : forall x y, In x (t_children l) -> In y (t_children r) ->
            exists b, rmap negb (is_subset0 kcmp strat fuel x (t_prefix x) y (t_prefix y)) = Ok b /\ (b = true <-> ~ keys_incl x y)).
          { intros x y Hx Hy. destruct (IH x (t_prefix x) y (t_prefix y)) as (b & Hb & I).
            - apply Sl in Hx. apply Sr in Hy. lia.
            - rewrite node_eta. now apply (wfc_In _ _ _ Cl).
            - now apply (wfc_In _ _ _ Cr).
            - rewrite !node_eta in I. rewrite Hb. cbn. eexists. split; [reflexivity|]. rewrite <- I. destruct b; cbn; split; auto; discriminate || (intros H; exfalso; now apply H). }
          destruct (ob_merge (fun a b => rmap negb (is_subset0 kcmp strat fuel a (t_prefix a) b (t_prefix b))) true
                      (t_children l) (t_children r) Cl0 Cr) as (b & Hb & I).
          { intros x y Hx Hy _. destruct (Hrec x y Hx Hy) as (b & Hb & _). eauto. }
          rewrite Hb. cbn [rmap]. exists (negb b). split; auto. split.
          * intros Hn k v Hk. apply negb_true_iff in Hn. destruct (lk_prefix _ _ _ _ _ Hk) as [[|c s] ->].
            { rewrite app_nil_r, !lk_here in *. rewrite Hk in Q. destruct (t_value r) as [w|]; [eauto|discriminate]. }
            rewrite (lk_child true) in Hk by auto. rewrite (lk_child false) by auto.
            destruct (child c (t_children l)) as [x|] eqn:Cx; [|discriminate]. cbn [lko] in Hk.
            apply (child_Some_In E) in Cx as [Hx Hhx].
            destruct (child c (t_children r)) as [y|] eqn:Cy; cbn [lko].
            -- apply (child_Some_In E) in Cy as [Hy Hhy]. destruct (Hrec x y Hx Hy) as (b' & Hb' & I').
               destruct (lk y (c :: s)) as [w|] eqn:Hw; [eauto|]. exfalso.
               assert (b = true); [|congruence]. apply I. left. exists x, y. repeat split; auto; [congruence|].
               rewrite Hb'. f_equal. apply I'. intros Hi. destruct (Hi _ _ Hk) as [w Hw']. congruence.
            -- exfalso. assert (b = true); [|congruence]. apply I. right. split; auto. exists x. split; auto.
               intros y Hy Z. apply (child_none E) with (t := y) in Cy; auto. congruence.
          * intros Hi. apply negb_true_iff. apply not_true_iff_false. intros Z. apply I in Z.
            destruct Z as [(x & y & Hx & Hy & Hh & Hs)|(_ & x & Hx & Hn)].
            -- destruct (Hrec x y Hx Hy) as (b' & Hb' & I'). rewrite Hs in Hb'. injection Hb' as <-.
               apply (proj1 I' eq_refl). intros k v Hk.
               destruct (child_lk true _ x k v Cl Hx Hk) as (c & s & -> & Cx).
               destruct (Hi (lp ++ c :: s) v) as [w Hw]; [now rewrite (lk_child true), Cx by auto|].
               rewrite (lk_child false) in Hw by auto.
               assert (Cy : child c (t_children r) = Some y).
               { apply (child_iff E); [eapply wfc_ksorted; eauto|]. apply (child_Some_In E) in Cx as [_ Hhx]. split; auto. congruence. }
               rewrite Cy in Hw. eauto.
            -- destruct (wfc_In _ _ _ Cl Hx) as (Hp & Wx & Hq). destruct (canon_key x Wx (Hq eq_refl)) as (k & v & Hk).
               destruct (child_lk true _ x k v Cl Hx Hk) as (c & s & -> & Cx).
               destruct (Hi (lp ++ c :: s) v) as [w Hw]; [now rewrite (lk_child true), Cx by auto|].
               rewrite (lk_child false) in Hw by auto.
               destruct (child c (t_children r)) as [y|] eqn:Cy; [|discriminate].
               apply (child_Some_In E) in Cy as [Hy Hhy]. apply (child_Some_In E) in Cx as [_ Hhx].
               apply (Hn y Hy). congruence.
        + exists false. split; auto. split; [discriminate|]. intros Hi.
          destruct (t_value l) as [v|] eqn:Ql; [|discriminate]. destruct (t_value r) as [w|] eqn:Qr; [discriminate|].
          destruct (Hi lp v) as [w Hw]; [apply lk_here|]. rewrite lk_here in Hw. discriminate.
      - rewrite skipn_app_exact. destruct (t_value l) as [v|] eqn:Qv.
        + exists false. split; auto. split; [discriminate|]. intros Hi.
          destruct (Hi lp v) as [w Hw]; [apply lk_here|]. apply lk_prefix in Hw as [s Hs].
          apply (f_equal (@length K)) in Hs. rewrite !app_length in Hs. simpl in Hs. lia.
        + assert (Hrec : forall c, In c (t_children l) ->
              exists b, is_subset0 kcmp strat fuel c (t_prefix c) r (x :: r0) = Ok b /\
                (b = true <-> keys_incl c (Node (x :: r0) (t_value r) (t_children r)))).
          { intros c Hc. destruct (IH c (t_prefix c) r (x :: r0)) as (b & Hb & I); auto.
            - apply Sl in Hc. lia.
            - rewrite node_eta. now apply (wfc_In _ _ _ Cl).
            - rewrite node_eta in I. eauto. }
          destruct (all_ok (fun lc => is_subset0 kcmp strat fuel lc (t_prefix lc) r (x :: r0)) (t_children l)) as (b & Hb & I).
          { intros c Hc. destruct (Hrec c Hc) as (b & Hb & _). eauto. }
          exists b. split; auto. rewrite I. split.
          * intros Ha k v Hk. destruct (lk_prefix _ _ _ _ _ Hk) as [[|c s] ->].
            { rewrite app_nil_r, lk_here in Hk. discriminate. }
            rewrite (lk_child true) in Hk by auto. destruct (child c (t_children l)) as [u|] eqn:Cu; [|discriminate].
            apply (child_Some_In E) in Cu as [Hu _]. destruct (Hrec u Hu) as (b' & Hb' & I').
            rewrite Ha in Hb' by auto. injection Hb' as <-. rewrite lk_shift. apply (proj1 I' eq_refl _ _ Hk).
          * intros Hi c Hc. destruct (Hrec c Hc) as (b' & Hb' & I'). rewrite Hb'. f_equal. apply I'.
            intros k v Hk. destruct (child_lk true _ c k v Cl Hc Hk) as (h & s & -> & Cx).
            destruct (Hi (lp ++ h :: s) v) as [w Hw]; [now rewrite (lk_child true), Cx by auto|].
            rewrite lk_shift in Hw. eauto.
      - rewrite skipn_app_exact.
        assert (Hne : t_is_empty (Node (rp ++ x :: r0) (t_value l) (t_children l)) = false).
        { apply wf_true_ne in Wl; auto. destruct rp; discriminate. }
        assert (Wl' : wf true (Node (x :: r0) (t_value l) (t_children l)))
          by (eapply wf_shorten; [exact Wl|destruct rp; discriminate]).
        assert (Hrec : forall c, In c (t_children r) ->
            exists b, is_subset0 kcmp strat fuel l (x :: r0) c (t_prefix c) = Ok b /\
              (b = true <-> keys_incl (Node (x :: r0) (t_value l) (t_children l)) c)).
        { intros c Hc. destruct (IH l (x :: r0) c (t_prefix c)) as (b & Hb & I); auto.
          - apply Sr in Hc. lia.
          - now apply (wfc_In _ _ _ Cr).
          - rewrite node_eta in I. eauto. }
        destruct (any_ok (fun rc => is_subset0 kcmp strat fuel l (x :: r0) rc (t_prefix rc)) (t_children r)) as (b & Hb & I).
        { intros c Hc. destruct (Hrec c Hc) as (b & Hb & _). eauto. }
        exists b. split; auto. rewrite I. split.
        + intros (c & Hc & Hs) k v Hk. destruct (Hrec c Hc) as (b' & Hb' & I'). rewrite Hs in Hb'. injection Hb' as <-.
          destruct (lk_prefix _ _ _ _ _ Hk) as [s ->]. rewrite <- app_assoc in *. rewrite lk_shift in Hk.
          destruct (proj1 I' eq_refl _ _ Hk) as [w Hw]. exists w.
          destruct (child_lk false _ c _ w Cr Hc Hw) as (h & s' & Q & Cx). rewrite Q in *.
          now rewrite (lk_child false), Cx by auto.
        + intros Hi.
          destruct (canon_key (Node (x :: r0) (t_value l) (t_children l)) Wl' Hne) as (k0 & v0 & Hk0).
          destruct (lk_prefix _ _ _ _ _ Hk0) as [s0 ->]. cbn [app] in Hk0.
          destruct (Hi (rp ++ x :: r0 ++ s0) v0) as [w Hw]; [now rewrite lk_shift|].
          rewrite (lk_child false) in Hw by auto. destruct (child x (t_children r)) as [c|] eqn:Cx; [|discriminate].
          assert (Hc : In c (t_children r)) by (now apply (child_Some_In E) in Cx).
          exists c. split; auto. destruct (Hrec c Hc) as (b' & Hb' & I'). rewrite Hb'. f_equal. apply I'.
          intros k v Hk. destruct (lk_prefix _ _ _ _ _ Hk) as [s ->]. cbn [app] in *.
          destruct (Hi (rp ++ x :: r0 ++ s) v) as [w' Hw']; [now rewrite lk_shift|].
          rewrite (lk_child false), Cx in Hw' by auto. eauto.
      - exists false. split; auto. split; [discriminate|]. intros Hi.
        assert (Hne : t_is_empty (Node (s ++ x :: r0) (t_value l) (t_children l)) = false).
        { apply wf_true_ne in Wl; auto. destruct s; discriminate. }
        destruct (canon_key _ Wl Hne) as (k & v & Hk). destruct (Hi k v Hk) as [w Hw].
        rewrite lk_strip in Hk. rewrite lk_strip in Hw. destruct (fork_strip E s x r0 y u k Hxy) as [Z|Z]; rewrite Z in *; discriminate.
    Qed.

    (** on any well ordered tree: never a panic, and never wrongly true *)
    Lemma is_subset0_sound fuel : forall (l : rtree K V) lp (r : rtree K W) rp, t_size l + t_size r < fuel ->
      wf false l -> wf false r ->
      exists b, is_subset0 kcmp strat fuel l lp r rp = Ok b /\
        (b = true -> keys_incl (Node lp (t_value l) (t_children l)) (Node rp (t_value r) (t_children r))).
    Proof.
      induction fuel as [|fuel IH]; intros l lp r rp Hf Wl Wr; [lia|].
      pose proof (wf_wfc _ _ Wl) as Cl. pose proof (wf_wfc _ _ Wr) as Cr.
      cbn [is_subset0].
      pose proof (size_children l) as Sl. pose proof (size_children r) as Sr.
      cases lp rp.
      - destruct (match t_value l, t_value r with None, _ => true | _, Some _ => true | _, _ => false end) eqn:Q.
        + assert (Hrec : forall x y, In x (t_children l) -> In y (t_children r) ->
            exists b, rmap negb (is_subset0 kcmp strat fuel x (t_prefix x) y (t_prefix y)) = Ok b /\ (b = false -> keys_incl x y)).
          { intros x y Hx Hy. destruct (IH x (t_prefix x) y (t_prefix y)) as (b & Hb & I).
            - apply Sl in Hx. apply Sr in Hy. lia.
            - now apply (wfc_In _ _ _ Cl).
            - now apply (wfc_In _ _ _ Cr).
            - rewrite !node_eta in I. rewrite Hb. cbn. eexists. split; [reflexivity|]. intros Z. apply I. now destruct b. }
          destruct (ob_merge (fun a b => rmap negb (is_subset0 kcmp strat fuel a (t_prefix a) b (t_prefix b))) true
                      (t_children l) (t_children r) Cl Cr) as (b & Hb & I).
          { intros x y Hx Hy _. destruct (Hrec x y Hx Hy) as (b & Hb & _). eauto. }
          rewrite Hb. cbn [rmap]. exists (negb b). split; auto.
          intros Hn k v Hk. apply negb_true_iff in Hn. destruct (lk_prefix _ _ _ _ _ Hk) as [[|c s] ->].
          { rewrite app_nil_r, !lk_here in *. rewrite Hk in Q. destruct (t_value r) as [w|]; [eauto|discriminate]. }
          rewrite (lk_child false) in Hk by auto. rewrite (lk_child false) by auto.
          destruct (child c (t_children l)) as [x|] eqn:Cx; [|discriminate]. cbn [lko] in Hk.
          apply (child_Some_In E) in Cx as [Hx Hhx].
          destruct (child c (t_children r)) as [y|] eqn:Cy; cbn [lko].
          * apply (child_Some_In E) in Cy as [Hy Hhy]. destruct (Hrec x y Hx Hy) as (b' & Hb' & I').
            destruct b'; [|now apply (I' eq_refl _ _ Hk)]. exfalso.
            assert (b = true); [|congruence]. apply I. left. exists x, y. repeat split; auto; congruence.
          * exfalso. assert (b = true); [|congruence]. apply I. right. split; auto. exists x. split; auto.
            intros y Hy Z. apply (child_none E) with (t := y) in Cy; auto. congruence.
        + exists false. split; auto. discriminate.
      - rewrite skipn_app_exact. destruct (t_value l) as [v|] eqn:Qv.
        + exists false. split; auto. discriminate.
        + assert (Hrec : forall c, In c (t_children l) ->
              exists b, is_subset0 kcmp strat fuel c (t_prefix c) r (x :: r0) = Ok b /\
                (b = true -> keys_incl c (Node (x :: r0) (t_value r) (t_children r)))).
          { intros c Hc. destruct (IH c (t_prefix c) r (x :: r0)) as (b & Hb & I); auto.
            - apply Sl in Hc. lia.
            - now apply (wfc_In _ _ _ Cl).
            - rewrite node_eta in I. eauto. }
          destruct (all_ok (fun lc => is_subset0 kcmp strat fuel lc (t_prefix lc) r (x :: r0)) (t_children l)) as (b & Hb & I).
          { intros c Hc. destruct (Hrec c Hc) as (b & Hb & _). eauto. }
          exists b. split; auto. rewrite I.
          intros Ha k v Hk. destruct (lk_prefix _ _ _ _ _ Hk) as [[|c s] ->].
          { rewrite app_nil_r, lk_here in Hk. discriminate. }
          rewrite (lk_child false) in Hk by auto. destruct (child c (t_children l)) as [u|] eqn:Cu; [|discriminate].
          apply (child_Some_In E) in Cu as [Hu _]. destruct (Hrec u Hu) as (b' & Hb' & I').
          rewrite Ha in Hb' by auto. injection Hb' as <-. rewrite lk_shift. apply (I' eq_refl _ _ Hk).
      - rewrite skipn_app_exact.
        assert (Hrec : forall c, In c (t_children r) ->
            exists b, is_subset0 kcmp strat fuel l (x :: r0) c (t_prefix c) = Ok b /\
              (b = true -> keys_incl (Node (x :: r0) (t_value l) (t_children l)) c)).
        { intros c Hc. destruct (IH l (x :: r0) c (t_prefix c)) as (b & Hb & I); auto.
          - apply Sr in Hc. lia.
          - now apply (wfc_In _ _ _ Cr).
          - rewrite node_eta in I. eauto. }
        destruct (any_ok (fun rc => is_subset0 kcmp strat fuel l (x :: r0) rc (t_prefix rc)) (t_children r)) as (b & Hb & I).
        { intros c Hc. destruct (Hrec c Hc) as (b & Hb & _). eauto. }
        exists b. split; auto. rewrite I.
        intros (c & Hc & Hs) k v Hk. destruct (Hrec c Hc) as (b' & Hb' & I'). rewrite Hs in Hb'. injection Hb' as <-.
        destruct (lk_prefix _ _ _ _ _ Hk) as [s ->]. rewrite <- app_assoc in *. rewrite lk_shift in Hk.
        destruct (I' eq_refl _ _ Hk) as [w Hw]. exists w.
        destruct (child_lk false _ c _ w Cr Hc Hw) as (h & s' & Q & Cx). rewrite Q in *.
        now rewrite (lk_child false), Cx by auto.
      - exists false. split; auto. discriminate.
    Qed.
  End Subset.
End Pred.

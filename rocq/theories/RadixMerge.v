(** Merging children: every merge of two well-formed child lists is pointwise. *)
From Verif Require Export RadixFacts.

Section Merge.
  Context {K : Type} {kcmp : K -> K -> comparison} (L : OrdLaws kcmp) (E : OrdEq kcmp).

  (** order on first components *)
  Definition hord (a b : option K) : comparison :=
    match a, b with
    | None, None => Eq
    | None, Some _ => Lt
    | Some _, None => Gt
    | Some x, Some y => kcmp x y
    end.
  Lemma hord_laws : OrdLaws hord.
  Proof.
    constructor.
    - intros [x|] [y|]; simpl; auto. apply (ord_opp L).
    - intros [x|] [y|] [z|]; simpl; try congruence. apply (ord_trans L).
  Qed.
  Lemma hord_eq a b : hord a b = Eq <-> a = b.
  Proof.
    destruct a as [x|], b as [y|]; simpl; try (split; congruence).
    rewrite (E x y). split; congruence.
  Qed.

  Lemma ss_ksorted {V} (cs : list (rtree K V)) :
    Forall (fun c => t_prefix c <> []) cs ->
    (StronglySorted (head_lt kcmp) cs <-> ksorted (cmp := hord) hd_of cs).
  Proof.
    induction 1 as [|c cs Hc H IH].
    - split; [intros _; apply ksorted_nil|constructor].
    - rewrite ksorted_cons, <- IH. split.
      + intros Q. inversion Q as [|? ? Q1 Q2]; subst. split; auto. intros y Hy.
        rewrite Forall_forall in Q2. apply Q2 in Hy. unfold head_lt in Hy. unfold hd_of.
        destruct (t_prefix c), (t_prefix y); simpl in *; tauto.
      + intros [Q1 Q2]. constructor; auto. rewrite Forall_forall in *. intros y Hy.
        pose proof (H y Hy) as Hp. apply Q2 in Hy. unfold head_lt. unfold hd_of in Hy.
        destruct (t_prefix c), (t_prefix y); simpl in *; congruence.
  Qed.
  Lemma wfc_ksorted {V} q (cs : list (rtree K V)) : wfc (kcmp := kcmp) q cs -> ksorted (cmp := hord) hd_of cs.
  Proof. intros [H1 H2 _ _]. now apply ss_ksorted. Qed.

  Lemma child_iff {V} c (cs : list (rtree K V)) t : ksorted (cmp := hord) hd_of cs ->
    (child (kcmp := kcmp) c cs = Some t <-> In t cs /\ hd_of t = Some c).
  Proof.
    intros S. split; [apply (child_Some_In E)|]. induction cs as [|u cs IH]; [intros [[] _]|].
    apply ksorted_cons in S as [S Hu]. unfold child. simpl. intros [[->|Ht] Hh].
    - apply (heads_with_eq E) in Hh. now rewrite Hh.
    - destruct (heads_with c u) eqn:Q.
      + apply (heads_with_eq E) in Q. apply Hu in Ht. rewrite Q, Hh in Ht. simpl in Ht.
        rewrite (kcmp_refl E) in Ht. discriminate.
      + apply IH; auto.
  Qed.
  Lemma child_none {V} c (cs : list (rtree K V)) :
    child (kcmp := kcmp) c cs = None <-> forall t, In t cs -> hd_of t <> Some c.
  Proof. apply (child_None E). Qed.

  Lemma ne_hd {V} (t : rtree K V) : t_prefix t <> [] -> exists c, hd_of t = Some c.
  Proof. unfold hd_of. destruct (t_prefix t) as [|c p]; [congruence|]. simpl. eauto. Qed.

  Lemma head_cmp_hord {V W} (a : rtree K V) (b : rtree K W) :
    t_prefix a <> [] -> t_prefix b <> [] -> head_cmp kcmp a b = Some (hord (hd_of a) (hd_of b)).
  Proof.
    unfold head_cmp, hd_of. destruct (t_prefix a), (t_prefix b); simpl; congruence.
  Qed.

  Section Two.
    Context {V W : Type}.
    Notation A := (rtree K V).
    Notation B := (rtree K W).

    Section Ref.
      Context (ha : A -> option A) (hb : B -> option A) (hc : A -> B -> option A).
      Hypothesis ka : forall x r, ha x = Some r -> hord (hd_of r) (hd_of x) = Eq.
      Hypothesis kb : forall y r, hb y = Some r -> hord (hd_of r) (hd_of y) = Eq.
      Hypothesis kc : forall x y r, hord (hd_of x) (hd_of y) = Eq -> hc x y = Some r ->
                                    hord (hd_of r) (hd_of x) = Eq.
      Notation ref := (tape_ref (kcmp := hord) hd_of hd_of ha hb hc).

      Lemma ref_sorted a b : ksorted (cmp := hord) hd_of a -> ksorted (cmp := hord) hd_of b ->
        ksorted (cmp := hord) hd_of (ref a b).
      Proof. apply (tape_ref_sorted hord_laws hd_of hd_of ha hb hc hd_of ka kb kc). Qed.

      Lemma ref_child c a b : ksorted (cmp := hord) hd_of a -> ksorted (cmp := hord) hd_of b ->
        child (kcmp := kcmp) c (ref a b) =
        match child (kcmp := kcmp) c a, child (kcmp := kcmp) c b with
        | Some x, Some y => hc x y
        | Some x, None => ha x
        | None, Some y => hb y
        | None, None => None
        end.
      Proof.
        intros Sa Sb. pose proof (ref_sorted a b Sa Sb) as Sr.
        enough (H : forall r, child (kcmp := kcmp) c (ref a b) = Some r <->
          match child (kcmp := kcmp) c a, child (kcmp := kcmp) c b with
          | Some x, Some y => hc x y | Some x, None => ha x | None, Some y => hb y | None, None => None
          end = Some r).
        { destruct (child c (ref a b)) as [r|]; [symmetry; now apply H|].
          match goal with |- None = ?m => destruct m as [r|] eqn:Em end; auto. now apply H. }
        intros r. rewrite (child_iff c _ r Sr).
        rewrite (tape_ref_In hord_laws hd_of hd_of ha hb hc a b r Sa Sb).
        destruct (child c a) as [x|] eqn:Ca; [apply (child_iff _ _ _ Sa) in Ca as [Ia Ha]|];
        (destruct (child c b) as [y|] eqn:Cb; [apply (child_iff _ _ _ Sb) in Cb as [Ib Hb]|]);
          try rewrite (child_none c a) in Ca; try rewrite (child_none c b) in Cb.
        - split.
          + intros [[(u & Hu & Hn & Hr)|[(v & Hv & Hn & Hr)|(u & v & Hu & Hv & Huv & Hr)]] Hh].
            * pose proof (ka _ _ Hr) as Q. apply hord_eq in Q. exfalso. apply (Hn y); auto.
              apply hord_eq. congruence.
            * pose proof (kb _ _ Hr) as Q. apply hord_eq in Q. exfalso. apply (Hn x); auto.
              apply hord_eq. congruence.
            * pose proof (kc _ _ _ Huv Hr) as Q. apply hord_eq in Q. apply hord_eq in Huv.
              assert (u = x).
              { enough (Some u = Some x) by congruence. rewrite <- (proj2 (child_iff c a u Sa)); [|split; congruence].
                apply (child_iff c a x Sa). auto. }
              assert (v = y).
              { enough (Some v = Some y) by congruence. rewrite <- (proj2 (child_iff c b v Sb)); [|split; congruence].
                apply (child_iff c b y Sb). auto. }
              congruence.
          + intros Hr. assert (Hxy : hord (hd_of x) (hd_of y) = Eq) by (apply hord_eq; congruence).
            split; [right; right; exists x, y; auto|].
            pose proof (kc _ _ _ Hxy Hr) as Q. apply hord_eq in Q. congruence.
        - split.
          + intros [[(u & Hu & Hn & Hr)|[(v & Hv & Hn & Hr)|(u & v & Hu & Hv & Huv & Hr)]] Hh].
            * pose proof (ka _ _ Hr) as Q. apply hord_eq in Q.
              assert (u = x).
              { enough (Some u = Some x) by congruence. rewrite <- (proj2 (child_iff c a u Sa)); [|split; congruence].
                apply (child_iff c a x Sa). auto. }
              congruence.
            * pose proof (kb _ _ Hr) as Q. apply hord_eq in Q. exfalso. apply (Cb v); auto. congruence.
            * pose proof (kc _ _ _ Huv Hr) as Q. apply hord_eq in Q. apply hord_eq in Huv.
              exfalso. apply (Cb v); auto. congruence.
          + intros Hr. pose proof (ka _ _ Hr) as Q. apply hord_eq in Q.
            split; [left; exists x; repeat split; auto|congruence].
            intros y Hy Q2. apply hord_eq in Q2. apply (Cb y); auto. congruence.
        - split.
          + intros [[(u & Hu & Hn & Hr)|[(v & Hv & Hn & Hr)|(u & v & Hu & Hv & Huv & Hr)]] Hh].
            * pose proof (ka _ _ Hr) as Q. apply hord_eq in Q. exfalso. apply (Ca u); auto. congruence.
            * pose proof (kb _ _ Hr) as Q. apply hord_eq in Q.
              assert (v = y).
              { enough (Some v = Some y) by congruence. rewrite <- (proj2 (child_iff c b v Sb)); [|split; congruence].
                apply (child_iff c b y Sb). auto. }
              congruence.
            * pose proof (kc _ _ _ Huv Hr) as Q. apply hord_eq in Q. exfalso. apply (Ca u); auto. congruence.
          + intros Hr. pose proof (kb _ _ Hr) as Q. apply hord_eq in Q.
            split; [right; left; exists y; repeat split; auto|congruence].
            intros x Hx Q2. apply hord_eq in Q2. apply (Ca x); auto. congruence.
        - split; [|discriminate].
          intros [[(u & Hu & Hn & Hr)|[(v & Hv & Hn & Hr)|(u & v & Hu & Hv & Huv & Hr)]] Hh].
          * pose proof (ka _ _ Hr) as Q. apply hord_eq in Q. exfalso. apply (Ca u); auto. congruence.
          * pose proof (kb _ _ Hr) as Q. apply hord_eq in Q. exfalso. apply (Cb v); auto. congruence.
          * pose proof (kc _ _ _ Huv Hr) as Q. apply hord_eq in Q. exfalso. apply (Ca u); auto. congruence.
      Qed.
    End Ref.

    (** ** What is observed of the right operand *)
    Section Obs.
      Context {X : Type} (d : X) (ob : B -> list K -> X) (g : option V -> X -> option V).
      Definition obc (cs : list B) (k : list K) : X :=
        match k with
        | [] => d
        | c :: _ => match child (kcmp := kcmp) c cs with Some y => ob y k | None => d end
        end.
      Hypothesis g0 : g None d = None.
      Context (q qb : bool).

      (** an acceptable replacement of a node with head [h] *)
      Definition good (h : option K) (t : A) : Prop :=
        hd_of t = h /\ wf kcmp q t /\ (q = true -> t_is_empty t = false).

      Lemma good_prefix h c t : good h t -> h = Some c -> t_prefix t <> [].
      Proof. intros [H _] ->. unfold hd_of in H. destruct (t_prefix t); discriminate || congruence. Qed.

      (** a selector with a guard on the head, to get unconditional key preservation *)
      Definition guard (h : option K) (o : option A) : option A :=
        match o with
        | Some t => match hord (hd_of t) h with Eq => Some t | _ => None end
        | None => None
        end.
      Lemma guard_key h o r : guard h o = Some r -> hord (hd_of r) h = Eq.
      Proof.
        destruct o as [t|]; simpl; [|discriminate].
        destruct (hord (hd_of t) h) eqn:Q; try discriminate. now intros [= <-].
      Qed.
      Lemma guard_id h o : (forall t, o = Some t -> hd_of t = h) -> guard h o = o.
      Proof.
        intros H. destruct o as [t|]; auto. simpl. rewrite (H t eq_refl).
        now rewrite (proj2 (hord_eq h h) eq_refl).
      Qed.

      Section Result.
        Context (ha : A -> option A) (hb : B -> option A) (hc : A -> B -> option A).
        Context (ca : list A) (cb : list B).
        Hypothesis Wa : wfc (kcmp := kcmp) q ca.
        Hypothesis Wb : wfc (kcmp := kcmp) qb cb.
        Hypothesis Ha : forall x, In x ca -> (forall t, ha x = Some t -> good (hd_of x) t) /\
                                             (forall k, lko (kcmp := kcmp) (ha x) k = g (lk kcmp x k) d).
        Hypothesis Hb : forall y, In y cb -> (forall t, hb y = Some t -> good (hd_of y) t) /\
                                             (forall k, lko (kcmp := kcmp) (hb y) k = g None (ob y k)).
        Hypothesis Hc : forall x y, In x ca -> In y cb -> hd_of x = hd_of y ->
          (forall t, hc x y = Some t -> good (hd_of x) t) /\
          (forall k, lko (kcmp := kcmp) (hc x y) k = g (lk kcmp x k) (ob y k)).
        Let gha x := guard (hd_of x) (ha x).
        Let ghb y := guard (hd_of y) (hb y).
        Let ghc x y := guard (hd_of x) (hc x y).
        Notation l := (tape_ref (kcmp := hord) hd_of hd_of gha ghb ghc ca cb).

        Lemma result_ok : wfc (kcmp := kcmp) q l /\
          forall c k, lkc (kcmp := kcmp) l (c :: k) = g (lkc (kcmp := kcmp) ca (c :: k)) (obc cb (c :: k)).
        Proof.
          assert (Ka : forall x r, gha x = Some r -> hord (hd_of r) (hd_of x) = Eq)
            by (intros x r; apply guard_key).
          assert (Kb : forall x r, ghb x = Some r -> hord (hd_of r) (hd_of x) = Eq)
            by (intros x r; apply guard_key).
          assert (Kc : forall x y r, hord (hd_of x) (hd_of y) = Eq -> ghc x y = Some r -> hord (hd_of r) (hd_of x) = Eq)
            by (intros x y r _; apply guard_key).
          pose proof (wfc_ksorted _ _ Wa) as Sa. pose proof (wfc_ksorted _ _ Wb) as Sb.
          pose proof (ref_sorted gha ghb ghc Ka Kb Kc ca cb Sa Sb) as Sl.
          assert (Ga : forall x, In x ca -> gha x = ha x)
            by (intros x Hx; apply guard_id; intros t Ht; now apply (Ha x Hx)).
          assert (Gb : forall y, In y cb -> ghb y = hb y)
            by (intros y Hy; apply guard_id; intros t Ht; now apply (Hb y Hy)).
          assert (Gc : forall x y, In x ca -> In y cb -> hd_of x = hd_of y -> ghc x y = hc x y)
            by (intros x y Hx Hy Q; apply guard_id; intros t Ht; now apply (Hc x y Hx Hy Q)).
          assert (G : forall t, In t l -> exists c, good (Some c) t).
          { intros t Ht. apply (tape_ref_In hord_laws hd_of hd_of gha ghb ghc ca cb t Sa Sb) in Ht
              as [(x & Hx & _ & Hr)|[(y & Hy & _ & Hr)|(x & y & Hx & Hy & Hxy & Hr)]].
            - rewrite Ga in Hr by auto. apply Ha in Hr; auto.
              destruct (ne_hd x) as [c Q]; [now apply (wfc_In _ _ _ Wa)|]. exists c. now rewrite <- Q.
            - rewrite Gb in Hr by auto. apply Hb in Hr; auto.
              destruct (ne_hd y) as [c Q]; [now apply (wfc_In _ _ _ Wb)|]. exists c. now rewrite <- Q.
            - apply hord_eq in Hxy. rewrite Gc in Hr by auto. apply Hc in Hr; auto.
              destruct (ne_hd x) as [c Q]; [now apply (wfc_In _ _ _ Wa)|]. exists c. now rewrite <- Q. }
          assert (Wl : wfc (kcmp := kcmp) q l).
          { assert (Hne : Forall (fun c : A => t_prefix c <> []) l).
            { apply Forall_forall. intros t Ht. destruct (G t Ht) as [c Gt]. eapply good_prefix; eauto. }
            constructor; auto.
            - now apply ss_ksorted.
            - intros Q. apply Forall_forall. intros t Ht. destruct (G t Ht) as [c (_ & _ & Gt)]. auto.
            - apply Forall_forall. intros t Ht. now destruct (G t Ht) as [c (_ & Gt & _)]. }
          split; auto. intros c k.
          rewrite (lkc_child E q l), (lkc_child E q ca) by auto. unfold obc.
          rewrite (ref_child gha ghb ghc Ka Kb Kc c ca cb Sa Sb).
          destruct (child c ca) as [x|] eqn:Ca; [apply (child_iff _ _ _ Sa) in Ca as [Ia Hha]|];
          (destruct (child c cb) as [y|] eqn:Cb; [apply (child_iff _ _ _ Sb) in Cb as [Ib Hhb]|]).
          - rewrite Gc by congruence. apply Hc; congruence.
          - rewrite Ga by auto. now apply Ha.
          - rewrite Gb by auto. now apply Hb.
          - simpl. now rewrite g0.
        Qed.
      End Result.

      (** *** The two kinds of merge *)
      Section Run.
        Context (strat : nat -> nat -> bool) (rec : A -> B -> res A).
        Context (ca : list A) (cb : list B) (ta tb : bool) (conv : B -> option A).
        Hypothesis Wa : wfc (kcmp := kcmp) q ca.
        Hypothesis Wb : wfc (kcmp := kcmp) qb cb.
        Hypothesis Hta : forall v, g v d = if ta then v else None.
        Hypothesis Htb : forall y, In y cb ->
          if tb then exists t, conv y = Some t /\ good (hd_of y) t /\ forall k, lk kcmp t k = g None (ob y k)
          else forall k, g None (ob y k) = None.
        Hypothesis Hrec : forall x y, In x ca -> In y cb -> hd_of x = hd_of y ->
          exists t, rec x y = Ok t /\ wf kcmp q t /\ (t_is_empty t = false -> hd_of t = hd_of x) /\
                    forall k, lk kcmp t k = g (lk kcmp x k) (ob y k).

        Let ha (x : A) : option A := if ta then Some x else None.
        Let hb (y : B) : option A := if tb then conv y else None.
        Let hc (x : A) (y : B) : option A :=
          match rec x y with Ok t => if t_is_empty t then None else Some t | _ => None end.
        Let gha x := guard (hd_of x) (ha x).
        Let ghb y := guard (hd_of y) (hb y).
        Let ghc x y := guard (hd_of x) (hc x y).

        Lemma ha_ok x : In x ca -> (forall t, ha x = Some t -> good (hd_of x) t) /\
          (forall k, lko (kcmp := kcmp) (ha x) k = g (lk kcmp x k) d).
        Proof.
          intros Hx. destruct (wfc_In _ _ _ Wa Hx) as (H1 & H2 & H3). unfold ha. split.
          - intros t. destruct ta; [|discriminate]. intros [= <-]. repeat split; auto.
          - intros k. rewrite Hta. destruct ta; reflexivity.
        Qed.
        Lemma hb_ok y : In y cb -> (forall t, hb y = Some t -> good (hd_of y) t) /\
          (forall k, lko (kcmp := kcmp) (hb y) k = g None (ob y k)).
        Proof.
          intros Hy. pose proof (Htb y Hy) as H. unfold hb. destruct tb.
          - destruct H as (t & Q & H1 & H2). rewrite Q. split; [now intros ? [= <-]|exact H2].
          - split; [discriminate|]. intros k. simpl. now rewrite H.
        Qed.
        Lemma hc_ok x y : In x ca -> In y cb -> hd_of x = hd_of y ->
          (forall t, hc x y = Some t -> good (hd_of x) t) /\
          (forall k, lko (kcmp := kcmp) (hc x y) k = g (lk kcmp x k) (ob y k)).
        Proof.
          intros Hx Hy Q. destruct (Hrec x y Hx Hy Q) as (t & R & H1 & H2 & H3). unfold hc. rewrite R.
          destruct (t_is_empty t) eqn:Et.
          - split; [discriminate|]. intros k. rewrite <- H3. now rewrite lk_empty.
          - split; [|exact H3]. intros ? [= <-]. repeat split; auto.
        Qed.

        Lemma gha_id x : gha x = ha x.
        Proof. unfold gha, ha. destruct ta; auto. apply guard_id. now intros ? [= <-]. Qed.
        Lemma ghb_id y : In y cb -> ghb y = hb y.
        Proof. intros Hy. apply guard_id. intros t Ht. now apply (proj1 (hb_ok y Hy)). Qed.
        Lemma ghc_id x y : In x ca -> In y cb -> hord (hd_of x) (hd_of y) = Eq -> ghc x y = hc x y.
        Proof.
          intros Hx Hy Q. apply hord_eq in Q. apply guard_id. intros t Ht.
          now apply (proj1 (hc_ok x y Hx Hy Q)).
        Qed.
        Lemma omap_gha l : omap gha l = if ta then l else [].
        Proof.
          induction l as [|x l IH]; [now destruct ta|]. unfold omap in *. simpl. rewrite gha_id, IH.
          unfold ha. now destruct ta.
        Qed.
        Lemma omap_ghb l : incl l cb -> omap ghb l = omap hb l.
        Proof.
          induction l as [|x l IH]; intros H; auto. unfold omap in *. simpl.
          rewrite ghb_id by (apply H; now left). rewrite IH; auto. intros z Hz. apply H. now right.
        Qed.

        Lemma agrees {S} (O : mop S A B) : mo_cmp O = head_cmp kcmp -> cmp_agrees (kcmp := hord) hd_of hd_of O ca cb.
        Proof.
          intros HO x y Hx Hy. rewrite HO. apply head_cmp_hord.
          - now apply (wfc_In _ _ _ Wa).
          - now apply (wfc_In _ _ _ Wb).
        Qed.

        (** in place *)
        Notation OW := (op_with kcmp rec ta tb conv).
        Lemma extend_ok n (bd : builder A) l :
          (tb = true -> forall y, In y l -> exists t, conv y = Some t) -> tb = true -> n <= length l ->
          bd_extend conv n bd l = (MkB (bd_tgt bd ++ omap conv (firstn n l)) (bd_src bd) (bd_drop bd), skipn n l, true).
        Proof.
          intros H Q. specialize (H Q). revert bd l H. induction n as [|n IH]; intros bd l H Hn.
          - cbn [bd_extend firstn skipn]. unfold omap. simpl. rewrite app_nil_r. now destruct bd.
          - destruct l as [|y l]; [simpl in Hn; lia|]. cbn [bd_extend]. unfold omap. simpl.
            destruct (H y (or_introl eq_refl)) as [t Ht]. rewrite Ht.
            rewrite IH; [|intros z Hz; apply H; now right|simpl in Hn; lia].
            cbn. rewrite <- app_assoc. reflexivity.
        Qed.
        Lemma extend_adv n (bd bd' : builder A) l l' : n <= length l ->
          bd_extend conv n bd l = (bd', l', true) -> bd_src bd' = bd_src bd /\ l' = skipn n l.
        Proof.
          revert bd l. induction n as [|n IH]; intros bd l Hn.
          - cbn. intros [= <- <-]. auto.
          - destruct l as [|y l]; [simpl in Hn; lia|]. cbn [bd_extend skipn].
            destruct (conv y); [|discriminate]. intros H. apply IH in H; [|simpl in Hn; lia].
            exact H.
        Qed.
        Lemma ow_coll s x a y b : bd_src (ipr_a s) = x :: a -> ipr_b s = y :: b ->
          mo_coll OW s =
          match rec x y with
          | Ok t => Cont (MkIpr (MkB (bd_tgt (ipr_a s) ++ if t_is_empty t then [] else [t]) a
                                     (bd_drop (ipr_a s) ++ if t_is_empty t then [t] else [])) b)
          | Panicked => Panic s
          | OutOfFuel => NoFuel
          end.
        Proof.
          intros Ha' Hb'. cbn [op_with mo_coll]. unfold coll_with. rewrite Ha', Hb'.
          destruct (rec x y) as [t| |]; auto. cbn [adv_a adv_b ipr_msm]. unfold ipr_adv_a. cbn [obind].
          unfold ipr_adv_b. cbn [ipr_a ipr_b]. unfold bd_consume. cbn [bd_src bd_tgt bd_drop skipn].
          destruct (t_is_empty t); cbn [negb]; cbn [firstn]; rewrite ?app_nil_r; reflexivity.
        Qed.
        Lemma ow_advancing : advancing OW.
        Proof.
          constructor.
          - intros s n s' Hn. cbn. intros [= <-]. cbn. unfold bd_consume. destruct ta; auto.
          - intros s n s' Hn. cbn in *. unfold ipr_adv_b. destruct tb.
            + destruct (bd_extend conv n (ipr_a s) (ipr_b s)) as [[bd l] [|]] eqn:Q; [|discriminate].
              apply extend_adv in Q as [Q1 Q2]; auto. intros [= <-]. cbn. auto.
            + intros [= <-]. auto.
          - intros s x a y b s' Ha' Hb'. rewrite (ow_coll _ _ _ _ _ Ha' Hb').
            destruct (rec x y); try discriminate. intros [= <-]. auto.
        Qed.
        Lemma ow_pointwise :
          pointwise (kcmp := hord) hd_of hd_of gha ghb ghc OW (fun s => bd_tgt (ipr_a s)) ca cb.
        Proof.
          constructor.
          - intros s n Ia Ib Hn. cbn in *. unfold ipr_adv_a, bd_consume. rewrite omap_gha.
            destruct ta; eexists; (split; [reflexivity|]); cbn; rewrite ?app_nil_r; reflexivity.
          - intros s n Ia Ib Hn. cbn in *. unfold ipr_adv_b.
            assert (If : incl (firstn n (ipr_b s)) cb)
              by (intros z Hz; apply Ib; rewrite <- (firstn_skipn n (ipr_b s)); apply in_or_app; now left).
            rewrite omap_ghb by auto. unfold hb. destruct tb eqn:Qtb.
            + rewrite extend_ok; auto.
              * eexists. split; [reflexivity|]. reflexivity.
              * intros _ y Hy. destruct (Htb y (Ib y Hy)) as (t & Ht & _). eauto.
            + eexists. split; [reflexivity|]. cbn.
              replace (omap (fun _ : B => @None A) (firstn n (ipr_b s))) with (@nil A); [now rewrite app_nil_r|].
              generalize (firstn n (ipr_b s)). intros l. induction l; auto.
          - intros s x a y b Ia Ib Ha' Hb' Hxy. rewrite (ow_coll _ _ _ _ _ Ha' Hb').
            assert (Hx : In x ca) by (apply Ia; cbn; cbn in Ha'; rewrite Ha'; now left).
            assert (Hy : In y cb) by (apply Ib; cbn; cbn in Hb'; rewrite Hb'; now left).
            rewrite ghc_id by auto. unfold hc.
            destruct (Hrec x y Hx Hy (proj1 (hord_eq _ _) Hxy)) as (t & R & _). rewrite R.
            eexists. split; [reflexivity|]. cbn. now destruct (t_is_empty t).
        Qed.

        Lemma children_with_ok :
          exists l, children_with kcmp strat rec ta tb conv ca cb = Ok l /\ wfc (kcmp := kcmp) q l /\
            forall c k, lkc (kcmp := kcmp) l (c :: k) = g (lkc (kcmp := kcmp) ca (c :: k)) (obc cb (c :: k)).
        Proof.
          destruct (merge_pointwise hord_laws hd_of hd_of gha ghb ghc OW (fun s => bd_tgt (ipr_a s))
                      ow_advancing strat (ipr_new ca cb) ow_pointwise) as (s' & Q & T & _).
          - exact (wfc_ksorted _ _ Wa).
          - exact (wfc_ksorted _ _ Wb).
          - now apply agrees.
          - exists (tape_ref (kcmp := hord) hd_of hd_of gha ghb ghc ca cb). split.
            + unfold children_with, ipr_merge. rewrite Q. cbn [to_done]. now rewrite T.
            + apply result_ok; auto using ha_ok, hb_ok, hc_ok.
        Qed.

        (** pure *)
        Context (conva : A -> option A).
        Hypothesis Hconva : ta = true -> forall x, In x ca -> conva x = Some x.
        Notation OP := (op_pure kcmp rec ta tb conva conv).
        Lemma push_all_ok {Y} (cv : Y -> option A) l r : (forall y, In y l -> exists t, cv y = Some t) ->
          push_all cv l r = (r ++ omap cv l, true).
        Proof.
          revert r. induction l as [|y l IH]; intros r H; cbn [push_all].
          - unfold omap. simpl. now rewrite app_nil_r.
          - destruct (H y (or_introl eq_refl)) as [t Ht]. rewrite Ht, IH by (intros; apply H; now right).
            unfold omap. simpl. rewrite Ht. simpl. now rewrite <- app_assoc.
        Qed.
        Lemma op_coll s x a y b : vs_a s = x :: a -> vs_b s = y :: b ->
          mo_coll OP s =
          match rec x y with
          | Ok t => Cont (MkVs a b (vs_r s ++ if t_is_empty t then [] else [t]))
          | Panicked => Panic (MkVs a b (vs_r s))
          | OutOfFuel => NoFuel
          end.
        Proof.
          intros Ha' Hb'. cbn [op_pure mo_coll]. unfold coll_pure. rewrite Ha', Hb'.
          destruct (rec x y) as [t| |]; auto. destruct (t_is_empty t); now rewrite ?app_nil_r.
        Qed.
        Lemma op_advancing : advancing OP.
        Proof.
          constructor.
          - intros s n s' Hn. cbn in *. unfold vs_adv_a, si_take_front, si_drop_front.
            apply Nat.leb_le in Hn. rewrite Hn. destruct ta.
            + destruct (push_all conva (firstn n (vs_a s)) (vs_r s)) as [r [|]]; [|discriminate].
              intros [= <-]. auto.
            + intros [= <-]. auto.
          - intros s n s' Hn. cbn in *. unfold vs_adv_b, si_take_front, si_drop_front.
            apply Nat.leb_le in Hn. rewrite Hn. destruct tb.
            + destruct (push_all conv (firstn n (vs_b s)) (vs_r s)) as [r [|]]; [|discriminate].
              intros [= <-]. auto.
            + intros [= <-]. auto.
          - intros s x a y b s' Ha' Hb'. rewrite (op_coll _ _ _ _ _ Ha' Hb').
            destruct (rec x y); try discriminate. intros [= <-]. auto.
        Qed.
        Lemma op_pointwise : pointwise (kcmp := hord) hd_of hd_of gha ghb ghc OP vs_r ca cb.
        Proof.
          constructor.
          - intros s n Ia Ib Hn. cbn in *. unfold vs_adv_a, si_take_front, si_drop_front.
            assert (If : incl (firstn n (vs_a s)) ca)
              by (intros z Hz; apply Ia; rewrite <- (firstn_skipn n (vs_a s)); apply in_or_app; now left).
            apply Nat.leb_le in Hn. rewrite Hn, omap_gha. destruct ta eqn:Qta.
            + rewrite push_all_ok by (intros y Hy; exists y; auto).
              eexists. split; [reflexivity|]. cbn. f_equal.
              revert If. generalize (firstn n (vs_a s)). intros l. induction l as [|x l IH]; auto.
              intros If. unfold omap in *. simpl. rewrite Hconva; auto; [|apply If; now left].
              simpl. f_equal. apply IH. intros z Hz. apply If. now right.
            + eexists. split; [reflexivity|]. cbn. now rewrite app_nil_r.
          - intros s n Ia Ib Hn. cbn in *. unfold vs_adv_b, si_take_front, si_drop_front.
            assert (If : incl (firstn n (vs_b s)) cb)
              by (intros z Hz; apply Ib; rewrite <- (firstn_skipn n (vs_b s)); apply in_or_app; now left).
            apply Nat.leb_le in Hn. rewrite Hn. rewrite omap_ghb by auto. unfold hb. destruct tb eqn:Qtb.
            + rewrite push_all_ok.
              * eexists. split; [reflexivity|]. reflexivity.
              * intros y Hy. destruct (Htb y (If y Hy)) as (t & Ht & _). eauto.
            + eexists. split; [reflexivity|]. cbn.
              replace (omap (fun _ : B => @None A) (firstn n (vs_b s))) with (@nil A); [now rewrite app_nil_r|].
              generalize (firstn n (vs_b s)). intros l. induction l; auto.
          - intros s x a y b Ia Ib Ha' Hb' Hxy. rewrite (op_coll _ _ _ _ _ Ha' Hb').
            assert (Hx : In x ca) by (apply Ia; cbn; cbn in Ha'; rewrite Ha'; now left).
            assert (Hy : In y cb) by (apply Ib; cbn; cbn in Hb'; rewrite Hb'; now left).
            rewrite ghc_id by auto. unfold hc.
            destruct (Hrec x y Hx Hy (proj1 (hord_eq _ _) Hxy)) as (t & R & _). rewrite R.
            eexists. split; [reflexivity|]. cbn. now destruct (t_is_empty t).
        Qed.
        Lemma children_pure_ok :
          exists l, children_pure kcmp strat rec ta tb conva conv ca cb = Ok l /\ wfc (kcmp := kcmp) q l /\
            forall c k, lkc (kcmp := kcmp) l (c :: k) = g (lkc (kcmp := kcmp) ca (c :: k)) (obc cb (c :: k)).
        Proof.
          destruct (merge_pointwise hord_laws hd_of hd_of gha ghb ghc OP vs_r
                      op_advancing strat (vs_new ca cb) op_pointwise) as (s' & Q & T & _).
          - exact (wfc_ksorted _ _ Wa).
          - exact (wfc_ksorted _ _ Wb).
          - now apply agrees.
          - exists (tape_ref (kcmp := hord) hd_of hd_of gha ghb ghc ca cb). split.
            + unfold children_pure, vs_merge. rewrite Q. cbn [to_res]. now rewrite T.
            + apply result_ok; auto using ha_ok, hb_ok, hc_ok.
        Qed.
      End Run.
    End Obs.
  End Two.
End Merge.

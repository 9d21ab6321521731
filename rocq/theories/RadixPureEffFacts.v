(** The combinations that build a new tree, with effectful closures, compute what the in-place ones
    compute. *)
From Verif Require Import RadixPureEffModel RadixEffComb HeapFrame.

(** ** Two runs of the same merge on related states, when the steps are only related while there is
    something to consume *)
Section BsBound.
  Context {T : Type} (f : T -> option comparison) (l : list T).
  Lemma bs_loop_bound fuel : forall i j cnt, i <= j ->
    match fst (bs_loop f l fuel i j cnt) with BsOk m => i <= m < j | BsErr m => i <= m <= j | _ => True end.
  Proof.
    induction fuel as [|fuel IH]; intros i j cnt H; cbn [bs_loop]; [exact I|].
    destruct (i <? j) eqn:Q; [|cbn; lia]. apply Nat.ltb_lt in Q.
    assert (Hm : i <= i + (j - i) / 2 < j).
    { pose proof (Nat.div_lt (j - i) 2 ltac:(lia) ltac:(lia)). lia. }
    set (m := i + (j - i) / 2) in *. destruct (nth_error l m) as [x|]; [|exact I].
    destruct (f x) as [[]|]; [cbn; lia| | |exact I].
    - specialize (IH (m + 1) j (S cnt) ltac:(lia)). destruct (fst _); auto; lia.
    - specialize (IH i m (S cnt) ltac:(lia)). destruct (fst _); auto; lia.
  Qed.
  Lemma bsearch_bound : match bsearch f l with BsOk m => m < length l | BsErr m => m <= length l | _ => True end.
  Proof. unfold bsearch, bs_count. pose proof (bs_loop_bound (S (length l)) 0 (length l) 0 ltac:(lia)) as H. destruct (fst _); auto; lia. Qed.
End BsBound.

Section MergeSimB.
  Context {S1 A1 B1 S2 A2 B2 : Type} (O1 : mop S1 A1 B1) (O2 : mop S2 A2 B2) (R RP : S1 -> S2 -> Prop).
  (** the outcomes agree; [la], [lb]: how much is left *)
  Definition osimb (la lb : nat) (o1 : out S1) (o2 : out S2) : Prop :=
    match o1, o2 with
    | Cont s1, Cont s2 => R s1 s2 /\ length (mo_a O1 s1) = la /\ length (mo_b O1 s1) = lb
    | Panic s1, Panic s2 => RP s1 s2
    | NoFuel, NoFuel => True
    | _, _ => False
    end.
  Record msimb : Prop := {
    mb_rp : forall s1 s2, R s1 s2 -> RP s1 s2;
    mb_len_a : forall s1 s2, R s1 s2 -> length (mo_a O1 s1) = length (mo_a O2 s2);
    mb_len_b : forall s1 s2, R s1 s2 -> length (mo_b O1 s1) = length (mo_b O2 s2);
    mb_cmp : forall s1 s2 i j x1 x2 y1 y2, R s1 s2 -> nth_error (mo_a O1 s1) i = Some x1 -> nth_error (mo_a O2 s2) i = Some x2 ->
             nth_error (mo_b O1 s1) j = Some y1 -> nth_error (mo_b O2 s2) j = Some y2 -> mo_cmp O1 x1 y1 = mo_cmp O2 x2 y2;
    mb_fa : forall s1 s2 n la lb, R s1 s2 -> length (mo_a O1 s1) = n + la -> length (mo_b O1 s1) = lb ->
            osimb la lb (mo_from_a O1 s1 n) (mo_from_a O2 s2 n);
    mb_fb : forall s1 s2 n la lb, R s1 s2 -> length (mo_a O1 s1) = la -> length (mo_b O1 s1) = n + lb ->
            osimb la lb (mo_from_b O1 s1 n) (mo_from_b O2 s2 n);
    mb_co : forall s1 s2 la lb, R s1 s2 -> length (mo_a O1 s1) = S la -> length (mo_b O1 s1) = S lb ->
            osimb la lb (mo_coll O1 s1) (mo_coll O2 s2) }.
  Hypothesis H : msimb.

  Lemma osimb_bind la lb la' lb' o1 o2 k1 k2 : osimb la lb o1 o2 ->
    (forall s1 s2, R s1 s2 -> length (mo_a O1 s1) = la -> length (mo_b O1 s1) = lb -> osimb la' lb' (k1 s1) (k2 s2)) ->
    osimb la' lb' (obind o1 k1) (obind o2 k2).
  Proof. intros A B. destruct o1, o2; cbn [osimb obind] in *; try tauto. destruct A as (X & Y & Z). auto. Qed.

  Lemma binary_simb fuel : forall s1 s2 an bn la lb, R s1 s2 -> length (mo_a O1 s1) = an + la -> length (mo_b O1 s1) = bn + lb ->
    osimb la lb (binary_merge O1 fuel s1 an bn) (binary_merge O2 fuel s2 an bn).
  Proof.
    induction fuel as [|fuel IH]; intros s1 s2 an bn la lb Rs Ha Hb; cbn [binary_merge]; [exact I|].
    destruct (an =? 0) eqn:Qa; [destruct (bn =? 0) eqn:Qb|].
    - apply Nat.eqb_eq in Qa, Qb. subst. cbn [osimb]. auto.
    - apply Nat.eqb_eq in Qa. subst. apply (mb_fb H); auto.
    - destruct (bn =? 0) eqn:Qb; [apply Nat.eqb_eq in Qb; subst; apply (mb_fa H); auto|].
      apply Nat.eqb_neq in Qa, Qb.
      destruct (nth_error (mo_a O1 s1) (an / 2)) as [x1|] eqn:Q1.
      2:{ assert (Q2 : nth_error (mo_a O2 s2) (an / 2) = None).
          { apply nth_error_None. rewrite <- (mb_len_a H _ _ Rs). now apply nth_error_None. }
          rewrite Q2. now apply (mb_rp H). }
      destruct (nth_len _ (mo_a O2 s2) _ _ (mb_len_a H _ _ Rs) Q1) as (x2 & Q2). rewrite Q2.
      assert (QS : bsearch (fun y => option_map CompOpp (mo_cmp O1 x1 y)) (firstn bn (mo_b O1 s1)) =
                   bsearch (fun y => option_map CompOpp (mo_cmp O2 x2 y)) (firstn bn (mo_b O2 s2))).
      { apply bsearch_sim.
        - intros i. rewrite !nth_firstn. destruct (i <? bn); auto.
          destruct (nth_error (mo_b O1 s1) i) as [y1|] eqn:R1.
          + destruct (nth_len _ (mo_b O2 s2) _ _ (mb_len_b H _ _ Rs) R1) as (y2 & R2). rewrite R2. f_equal. eapply (mb_cmp H); eauto.
          + destruct (nth_error (mo_b O2 s2) i) as [y2|] eqn:R2; auto.
            destruct (nth_len _ (mo_b O1 s1) _ _ (eq_sym (mb_len_b H _ _ Rs)) R2). congruence.
        - rewrite !firstn_length. now rewrite (mb_len_b H _ _ Rs). }
      rewrite <- QS. pose proof (bsearch_bound (fun y => option_map CompOpp (mo_cmp O1 x1 y)) (firstn bn (mo_b O1 s1))) as Bd.
      rewrite firstn_length_le in Bd by lia.
      pose proof (Nat.div_lt an 2 ltac:(lia) ltac:(lia)) as Hd. set (am := an / 2) in *.
      destruct (bsearch _ _) as [bm|bi| |]; try exact I.
      + apply osimb_bind with (la := S (an - am - 1 + la)) (lb := S (bn - bm - 1 + lb)).
        * apply IH; auto; lia.
        * intros t1 t2 Rt Ta Tb. apply osimb_bind with (la := an - am - 1 + la) (lb := bn - bm - 1 + lb); [now apply (mb_co H)|].
          intros u1 u2 Ru Ua Ub. apply IH; auto.
      + apply osimb_bind with (la := S (an - am - 1 + la)) (lb := bn - bi + lb).
        * apply IH; auto; lia.
        * intros t1 t2 Rt Ta Tb. apply osimb_bind with (la := an - am - 1 + la) (lb := bn - bi + lb); [now apply (mb_fa H)|].
          intros u1 u2 Ru Ua Ub. apply IH; auto.
      + now apply (mb_rp H).
  Qed.
  Lemma tape_simb fuel : forall s1 s2, R s1 s2 -> osimb 0 0 (tape_merge O1 fuel s1) (tape_merge O2 fuel s2).
  Proof.
    induction fuel as [|fuel IH]; intros s1 s2 Rs; cbn [tape_merge]; [exact I|].
    pose proof (mb_len_a H _ _ Rs) as La. pose proof (mb_len_b H _ _ Rs) as Lb.
    destruct (mo_a O1 s1) as [|x1 l1] eqn:D1, (mo_a O2 s2) as [|x2 l2] eqn:D2; try discriminate;
    destruct (mo_b O1 s1) as [|y1 m1] eqn:E1, (mo_b O2 s2) as [|y2 m2] eqn:E2; try discriminate.
    - cbn [osimb]. rewrite D1, E1. auto.
    - rewrite <- Lb. apply (mb_fb H); auto; rewrite ?D1, ?E1; auto.
    - rewrite <- La. apply (mb_fa H); auto; rewrite ?D1, ?E1; auto.
    - assert (C : mo_cmp O1 x1 y1 = mo_cmp O2 x2 y2).
      { apply (mb_cmp H s1 s2 0 0); auto; rewrite ?D1, ?D2, ?E1, ?E2; auto. }
      rewrite C. destruct (mo_cmp O2 x2 y2) as [[]|]; [| | |now apply (mb_rp H)].
      + apply osimb_bind with (la := length l1) (lb := length m1); auto. apply (mb_co H); auto; rewrite ?D1, ?E1; auto.
      + apply osimb_bind with (la := length l1) (lb := S (length m1)); auto. apply (mb_fa H); auto; rewrite ?D1, ?E1; auto.
      + apply osimb_bind with (la := S (length l1)) (lb := length m1); auto. apply (mb_fb H); auto; rewrite ?D1, ?E1; auto.
  Qed.
  Lemma merge_simb strat s1 s2 : R s1 s2 -> osimb 0 0 (merge O1 strat s1) (merge O2 strat s2).
  Proof.
    intros Rs. unfold merge. rewrite <- (mb_len_a H _ _ Rs), <- (mb_len_b H _ _ Rs).
    destruct (strat _ _); [now apply tape_simb|apply binary_simb; auto].
  Qed.
End MergeSimB.

(** what is left of an in-place call when only the result is looked at *)
Definition forget {E X} (r : done (X * E)) : given_back E X :=
  match r with
  | Done (x, e) => Some (e, Ret x)
  | Unwound (_, e) => Some (e, Throw)
  | DoneNoFuel => None
  end.
(** a closure that builds a value, as one that changes it in place *)
Definition as_m {E V W} (f : clos E (V * W) (option V)) : mclos E V W :=
  fun e v w => match f e (v, w) with
               | (e', Ret (Some v')) => (e', v', Ret true)
               | (e', Ret None) => (e', v, Ret false)
               | (e', Throw) => (e', v, Throw)
               end.

Lemma push_some {X Y} (conv : X -> option Y) (h : X -> Y) l : (forall x, In x l -> conv x = Some (h x)) ->
  forall r, push_all conv l r = (r ++ map h l, true).
Proof.
  induction l as [|x l IH]; intros H r; cbn [push_all map]; [now rewrite app_nil_r|].
  rewrite (H x (or_introl eq_refl)), IH by (intros z Hz; apply H; now right). now rewrite <- app_assoc.
Qed.
Lemma extend_some {X Y Z} (conv : Y -> option Z) (g : X -> Y) (h : X -> Z) n : forall l (bd : builder Z),
  n <= length l -> (forall x, In x l -> conv (g x) = Some (h x)) ->
  bd_extend conv n bd (map g l) = (MkB (bd_tgt bd ++ map h (firstn n l)) (bd_src bd) (bd_drop bd), map g (skipn n l), true).
Proof.
  induction n as [|n IH]; intros l bd Hn H.
  - cbn. rewrite app_nil_r. now destruct bd.
  - destruct l as [|x l]; [cbn in Hn; lia|]. cbn [map bd_extend firstn skipn]. rewrite (H x (or_introl eq_refl)).
    rewrite IH; [|cbn in Hn; lia|intros z Hz; apply H; now right]. unfold bd_push. cbn [bd_tgt bd_src bd_drop]. now rewrite <- app_assoc.
Qed.
Lemma incl_skipn {X} n (l m : list X) : incl l m -> incl (skipn n l) m.
Proof. intros H x Hx. apply H. rewrite <- (firstn_skipn n l). apply in_or_app. now right. Qed.

Section Sim.
  Context {K : Type} (kcmp : K -> K -> comparison) (strat : nat -> nat -> bool) {E : Type}.
  Context {V W W' : Type} (g : rtree K W -> rtree K W') (Hg : forall y, t_prefix (g y) = t_prefix y).
  Context (prec : rtree K V -> rtree K W -> E -> given_back E (rtree K V)).
  Context (erec : rtree K V -> rtree K W' -> E -> done (rtree K V * E)).
  Context (ta tb : bool) (cv : rtree K V -> option (rtree K V)) (cw : rtree K W -> option (rtree K V)) (conv : rtree K W' -> option (rtree K V)).
  Context (ca : list (rtree K V)) (cb : list (rtree K W)) (h : rtree K W -> rtree K V).
  Hypothesis Hv : forall x, In x ca -> cv x = Some x.
  Hypothesis Hw : tb = true -> forall y, In y cb -> cw y = Some (h y) /\ conv (g y) = Some (h y).
  Hypothesis Hr : forall x y e, In x ca -> In y cb -> prec x y e = forget (erec x (g y) e).
  Notation OV := (pop_with kcmp prec ta tb cv cw).
  Notation OE := (eop_with kcmp erec ta tb conv).
  Definition srel (s : vstate (rtree K V) (rtree K W) (rtree K V) * E) (m : iprstate (rtree K V) (rtree K W') * E) : Prop :=
    bd_src (ipr_a (fst m)) = vs_a (fst s) /\ ipr_b (fst m) = map g (vs_b (fst s)) /\ bd_tgt (ipr_a (fst m)) = vs_r (fst s) /\
    snd m = snd s /\ incl (vs_a (fst s)) ca /\ incl (vs_b (fst s)) cb.
  Definition srelp (s : vstate (rtree K V) (rtree K W) (rtree K V) * E) (m : iprstate (rtree K V) (rtree K W') * E) : Prop := snd m = snd s.
  Lemma srel_msimb : msimb OV OE srel srelp.
  Proof.
    split.
    - intros s m H. apply H.
    - intros s m (H & _). cbn. now rewrite H.
    - intros s m (_ & H & _). cbn. now rewrite H, map_length.
    - intros s m i j x1 x2 y1 y2 (Ha & Hb & _). unfold osimb, srel; cbn. rewrite Ha, Hb. intros Q1 Q2 Q3 Q4. rewrite Q1 in Q2. injection Q2 as <-.
      rewrite (map_nth_error g _ _ Q3) in Q4. injection Q4 as <-. unfold head_cmp. now rewrite Hg.
    - intros [s e] [m e'] n la lb (Ha & Hb & Ht & He & Ia & Ib). cbn in Ha, Hb, Ht, He, Ia, Ib |- *. intros La Lb.
      unfold vs_adv_a, ipr_adv_a, si_take_front, si_drop_front. assert (Q : n <=? length (vs_a s) = true) by (apply Nat.leb_le; lia). rewrite Q.
      unfold bd_consume. destruct ta.
      + rewrite (push_some cv (fun x => x)).
        2:{ intros x Hx. apply Hv, Ia. rewrite <- (firstn_skipn n (vs_a s)). apply in_or_app. now left. }
        rewrite map_id. unfold osimb, srel; cbn. rewrite Ha, Hb, Ht. split; [|rewrite skipn_length; lia].
        split; [auto|]. split; [auto|]. split; [auto|]. split; [auto|]. split; [now apply incl_skipn|auto].
      + unfold osimb, srel; cbn. rewrite Ha, Hb, Ht. split; [|rewrite skipn_length; lia].
        split; [auto|]. split; [auto|]. split; [auto|]. split; [auto|]. split; [now apply incl_skipn|auto].
    - intros [s e] [m e'] n la lb (Ha & Hb & Ht & He & Ia & Ib). cbn in Ha, Hb, Ht, He, Ia, Ib |- *. intros La Lb.
      unfold vs_adv_b, ipr_adv_b, si_take_front, si_drop_front. assert (Q : n <=? length (vs_b s) = true) by (apply Nat.leb_le; lia). rewrite Q.
      destruct tb.
      + rewrite (push_some cw h).
        2:{ intros x Hx. apply Hw, Ib; auto. rewrite <- (firstn_skipn n (vs_b s)). apply in_or_app. now left. }
        rewrite Hb, (extend_some conv g h); [|lia|intros y Hy; apply Hw, Ib; auto].
        unfold osimb, srel; cbn. rewrite Ha, Ht. split; [|rewrite skipn_length; lia].
        split; [auto|]. split; [auto|]. split; [auto|]. split; [auto|]. split; [auto|now apply incl_skipn].
      + unfold osimb, srel; cbn. rewrite Ha, Hb, Ht. split; [|rewrite skipn_length; lia].
        split; [auto|]. split; [apply skipn_map|]. split; [auto|]. split; [auto|]. split; [auto|now apply incl_skipn].
    - intros [s e] [m e'] la lb (Ha & Hb & Ht & He & Ia & Ib). cbn in Ha, Hb, Ht, He, Ia, Ib |- *. intros La Lb. subst e'.
      destruct (vs_a s) as [|x a]; [discriminate|]. destruct (vs_b s) as [|y b]; [discriminate|].
      rewrite Ha, Hb. cbn [map]. rewrite (Hr x y e (Ia x (or_introl eq_refl)) (Ib y (or_introl eq_refl))).
      destruct (erec x (g y) e) as [[t e1]|[t e1]|]; cbn [forget].
      + cbn [adv_a adv_b ipr_msm]. unfold ipr_adv_a, ipr_adv_b. cbn [obind ipr_a ipr_b]. unfold bd_consume. cbn [bd_src bd_tgt bd_drop].
        assert (I1 : incl a ca) by (intros z Hz; apply Ia; now right). assert (I2 : incl b cb) by (intros z Hz; apply Ib; now right).
        rewrite Ht. unfold osimb, srel; destruct (t_is_empty t); cbn; (split; [|cbn in La, Lb; lia]);
          (split; [auto|]; split; [auto|]; split; [auto|]; split; [auto|]; split; auto).
      + reflexivity.
      + exact I.
  Qed.
  Lemma pchildren_eq e : pchildren kcmp strat prec ta tb cv cw ca cb e = forget (echildren_with kcmp strat erec ta tb conv ca (map g cb) e).
  Proof.
    unfold pchildren, echildren_with.
    pose proof (merge_simb OV OE srel srelp srel_msimb strat (vs_new ca cb, e) (ipr_new ca (map g cb), e)) as S.
    assert (R0 : srel (vs_new ca cb, e) (ipr_new ca (map g cb), e)).
    { unfold srel. cbn. split; [auto|]. split; [auto|]. split; [auto|]. split; [auto|]. split; apply incl_refl. }
    specialize (S R0). destruct (merge OV strat _) as [s|s|s|], (merge OE strat _) as [m|m|m|]; cbn [osimb] in S; try contradiction; cbn [to_done forget].
    - destruct S as ((_ & _ & H1 & H2 & _) & _). now rewrite H1, H2.
    - unfold srelp in S. now rewrite S.
    - reflexivity.
  Qed.
End Sim.

(** every node of a tree as an entry *)
Section Tag.
  Context {K W : Type}.
  Fixpoint tag (t : rtree K W) : rtree K (option W) :=
    let 'Node p ow cs := t in Node p (Some ow) (map tag cs).
  Lemma tag_prefix t : t_prefix (tag t) = t_prefix t.
  Proof. now destruct t. Qed.
  Lemma tag_size t : t_size (tag t) = t_size t.
  Proof.
    induction t as [p ow cs IH] using rtree_ind'. cbn [tag t_size]. f_equal. f_equal. rewrite map_map.
    induction IH as [|c cs Hc _ IHl]; cbn [map]; [auto|]. now rewrite Hc, IHl.
  Qed.
  Lemma tag_wf (kcmp : K -> K -> comparison) t : wf kcmp false t -> wf kcmp false (tag t).
  Proof.
    induction t as [p ow cs IH] using rtree_ind'. intros H. apply wf_wfc in H. cbn [t_children] in H. cbn [tag].
    apply wf_node. split; [|discriminate]. revert H. induction IH as [|c cs Hc _ IHl]; intros H; cbn [map]; [apply wfc_nil|].
    apply wfc_cons in H as (H1 & H2 & _ & H4 & H5). apply wfc_cons. rewrite tag_prefix. split; [auto|]. split; [|split; [discriminate|auto]].
    clear - H2. induction H2 as [|d cs Hd _ IHl]; cbn [map]; constructor; auto. unfold head_lt in *. now rewrite !tag_prefix.
  Qed.
End Tag.

Section Nodes.
  Context {K : Type} (kcmp : K -> K -> comparison) (EQ : OrdEq kcmp) (strat : nat -> nat -> bool) {E : Type}.
  Notation wf := (wf kcmp).
  Lemma forget_finish {V} (p : list K) (v : option V) (r : done (list (rtree K V) * E)) :
    forget (efinish p v r) = built p v (forget r).
  Proof. destruct r as [[c e]|[c e]|]; reflexivity. Qed.

  Lemma conv_children {V} (cs : list (rtree K V)) : wfc (kcmp := kcmp) false cs -> forall x, In x cs -> mat_conv x = Some x.
  Proof. intros C x Hx. destruct (wfc_In _ _ _ C Hx) as (H1 & H2 & _). now apply (mat_conv_ok (kcmp := kcmp) false). Qed.
  Lemma shortened {V} p x r v (cs : list (rtree K V)) : wf false (Node (p ++ x :: r) v cs) ->
    mat_short (Node (p ++ x :: r) v cs) (length p) = Ok (Node (x :: r) v cs) /\ wfc (kcmp := kcmp) false [Node (x :: r) v cs].
  Proof.
    intros H. split.
    - rewrite (mat_short_ok (kcmp := kcmp) false _ _ H) by (cbn [t_prefix]; rewrite app_length; simpl; lia).
      cbn [t_prefix t_value t_children]. now rewrite skipn_app_exact.
    - apply wfc_single; [discriminate|discriminate|]. eapply wf_shorten; [exact H|destruct p; discriminate].
  Qed.

  Ltac cases p p2 :=
    destruct (cp_cases EQ p p2) as [<- Hn|x r -> Hn|x r -> Hn|s x r y u -> -> Hxy Hn]; rewrite Hn; clear Hn;
    rewrite ?Nat.eqb_refl, ?app_cons_length; cbn [andb].
  Ltac splitted := unfold t_split at 1; cbn [t_prefix t_value t_children]; rewrite ?app_cons_ltb; cbn [elift t_prefix t_value t_children];
    rewrite ?skipn_app_exact, ?firstn_app_exact.

  Section Both.
    Context {V : Type} (f : clos E (V * V) (option V)).
    Lemma pouter_eq fuel : forall (a b : rtree K V) e, wf false a -> wf false b ->
      pouter kcmp strat f fuel a b e = forget (eouter_with kcmp strat (as_m f) fuel a b e).
    Proof.
      induction fuel as [|fuel IH]; intros a b e Wa Wb; [reflexivity|].
      assert (HM : forall ca cb e, wfc (kcmp := kcmp) false ca -> wfc (kcmp := kcmp) false cb ->
        pchildren kcmp strat (pouter kcmp strat f fuel) true true mat_conv mat_conv ca cb e =
        forget (echildren_with kcmp strat (eouter_with kcmp strat (as_m f) fuel) true true mat_conv ca cb e)).
      { intros ca cb e0 Ca Cb. rewrite <- (map_id cb) at 2. apply (pchildren_eq kcmp strat (fun y => y)) with (h := fun y => y); auto.
        - now apply conv_children.
        - intros _ y Hy. pose proof (conv_children _ Cb y Hy). auto.
        - intros x y e1 Hx Hy. apply IH; [apply (wfc_In _ _ _ Ca Hx)|apply (wfc_In _ _ _ Cb Hy)]. }
      cbn [pouter eouter_with]. destruct a as [p v ca], b as [p2 w cb]. cbn [t_prefix t_value t_children] in *.
      pose proof (wf_wfc _ _ Wa) as Ca. pose proof (wf_wfc _ _ Wb) as Cb. cbn [t_children] in Ca, Cb.
      cases p p2.
      - rewrite firstn_all. destruct w as [w|], v as [v|]; cbn [pval_outer eupd_outer evalue then_]; rewrite ?forget_finish, ?HM; auto.
        unfold as_m. destruct (f e (v, w)) as [e' [[v'|]|]]; cbn [then_ evalue]; rewrite ?forget_finish, ?HM; auto.
      - destruct (shortened _ _ _ _ _ Wb) as [-> Cs]. cbn [quiet elift]. now rewrite firstn_all, forget_finish, HM.
      - destruct (shortened _ _ _ _ _ Wa) as [-> Cs]. cbn [quiet]. splitted. destruct w as [w|]; cbn [eupd_outer evalue]; now rewrite forget_finish, HM.
      - destruct (shortened _ _ _ _ _ Wa) as [-> Cs]. destruct (shortened _ _ _ _ _ Wb) as [-> Cs']. cbn [quiet].
        splitted. cbn [app]. destruct (sort_heads kcmp _); reflexivity.
    Qed.
  End Both.
  Section Left.
    Context {V W : Type}.
    Lemma pinner_eq (f : clos E (V * W) (option V)) fuel : forall (a : rtree K V) (b : rtree K W) e, wf false a -> wf false b ->
      pinner kcmp strat f fuel a b e = forget (einner_with kcmp strat (as_m f) fuel a b e).
    Proof.
      induction fuel as [|fuel IH]; intros a b e Wa Wb; [reflexivity|].
      assert (HM : forall ca cb e, wfc (kcmp := kcmp) false ca -> wfc (kcmp := kcmp) false cb ->
        pchildren kcmp strat (pinner kcmp strat f fuel) false false mat_conv NoConverter ca cb e =
        forget (echildren_with kcmp strat (einner_with kcmp strat (as_m f) fuel) false false NoConverter ca cb e)).
      { intros ca cb e0 Ca Cb. rewrite <- (map_id cb) at 2.
        apply (pchildren_eq kcmp strat (fun y => y)) with (h := fun _ => Node [] None []); auto.
        - now apply conv_children.
        - discriminate.
        - intros x y e1 Hx Hy. apply IH; [apply (wfc_In _ _ _ Ca Hx)|apply (wfc_In _ _ _ Cb Hy)]. }
      cbn [pinner einner_with]. destruct a as [p v ca], b as [p2 w cb]. cbn [t_prefix t_value t_children] in *.
      pose proof (wf_wfc _ _ Wa) as Ca. pose proof (wf_wfc _ _ Wb) as Cb. cbn [t_children] in Ca, Cb.
      cases p p2.
      - rewrite firstn_all. destruct w as [w|], v as [v|]; cbn [pval_inner eupd_inner evalue then_]; rewrite ?forget_finish, ?HM; auto.
        unfold as_m. destruct (f e (v, w)) as [e' [[v'|]|]]; cbn [then_ evalue]; rewrite ?forget_finish, ?HM; auto.
      - destruct (shortened _ _ _ _ _ Wb) as [-> Cs]. cbn [quiet elift]. now rewrite firstn_all, forget_finish, HM.
      - destruct (shortened _ _ _ _ _ Wa) as [-> Cs]. cbn [quiet]. splitted. now rewrite forget_finish, HM.
      - unfold built. cbn [then_]. cbn [t_unsplit filter t_is_empty forget]. reflexivity.
    Qed.
    Lemma pleft_eq (f : clos E (V * option W) (option V)) fuel : forall (a : rtree K V) (b : rtree K W) e, wf false a -> wf false b ->
      pleft kcmp strat f fuel a b e = forget (eleft_with kcmp strat (as_m f) fuel a (tag b) e).
    Proof.
      induction fuel as [|fuel IH]; intros a b e Wa Wb; [reflexivity|].
      assert (HM : forall ca cb e, wfc (kcmp := kcmp) false ca -> wfc (kcmp := kcmp) false cb ->
        pchildren kcmp strat (pleft kcmp strat f fuel) true false mat_conv NoConverter ca cb e =
        forget (echildren_with kcmp strat (eleft_with kcmp strat (as_m f) fuel) true false NoConverter ca (map tag cb) e)).
      { intros ca cb e0 Ca Cb.
        apply (pchildren_eq kcmp strat tag tag_prefix) with (h := fun _ => Node [] None []); auto.
        - now apply conv_children.
        - discriminate.
        - intros x y e1 Hx Hy. apply IH; [apply (wfc_In _ _ _ Ca Hx)|apply (wfc_In _ _ _ Cb Hy)]. }
      pose proof (tag_wf _ _ Wb) as Wt.
      cbn [pleft eleft_with]. destruct a as [p v ca], b as [p2 w cb]. cbn [tag t_prefix t_value t_children] in *.
      pose proof (wf_wfc _ _ Wa) as Ca. pose proof (wf_wfc _ _ Wb) as Cb. cbn [t_children] in Ca, Cb.
      cases p p2.
      - rewrite firstn_all. destruct v as [v|]; cbn [pval_left eupd_left evalue then_]; rewrite ?forget_finish, ?HM; auto.
        unfold as_m. destruct (f e (v, w)) as [e' [[v'|]|]]; cbn [then_ evalue]; rewrite ?forget_finish, ?HM; auto.
      - destruct (shortened _ _ _ _ _ Wb) as [-> Cs]. destruct (shortened _ _ _ _ _ Wt) as [-> _]. cbn [quiet elift].
        rewrite firstn_all, forget_finish, HM by auto. reflexivity.
      - destruct (shortened _ _ _ _ _ Wa) as [-> Cs]. cbn [quiet]. splitted. now rewrite forget_finish, HM.
      - rewrite (mat_all_ok (kcmp := kcmp) false) by auto. reflexivity.
    Qed.
  End Left.
End Nodes.

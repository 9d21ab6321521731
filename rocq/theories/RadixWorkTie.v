(** What RadixWorkModel.v counts are the calls of user code that RadixUserModel.v makes: with comparisons and clones that
    count how often they are called, the two agree. *)
From Verif Require Export RadixWorkModel RadixUserModel.
From Verif Require Import RadixUserEngine RadixFacts RadixUserPlain.

Section Sim.
  Context {S1 S2 A B : Type} (R : S1 -> nat -> S2 -> Prop).
  Context (c : nat -> A -> B -> nat * option comparison) (c' : S2 -> A -> B -> S2 * option comparison).
  Context (O : mop S1 A B) (O' : mop S2 A B).
  Definition rout (o : out S1) (n : nat) (o' : out S2) : Prop :=
    match o with
    | Cont x => exists y, o' = Cont y /\ R x n y
    | Stop x => exists y, o' = Stop y /\ R x n y
    | Panic _ | NoFuel => True
    end.
  Context (Ha : forall x n y, R x n y -> mo_a O' y = mo_a O x) (Hb : forall x n y, R x n y -> mo_b O' y = mo_b O x).
  Context (Hc : forall x n y p q, R x n y -> snd (c n p q) = None \/ exists y1, c' y p q = (y1, snd (c n p q)) /\ R x (fst (c n p q)) y1).
  Context (Fa : forall x n y k, R x n y -> rout (mo_from_a O x k) n (mo_from_a O' y k)).
  Context (Fb : forall x n y k, R x n y -> rout (mo_from_b O x k) n (mo_from_b O' y k)).
  Context (Fc : forall x n y, R x n y -> rout (mo_coll O x) n (mo_coll O' y)).

  Lemma wbs_sim x p : forall fuel l lo hi n y, R x n y ->
    fst (wbs_loop (fun w q => let (w', r) := c w p q in (w', option_map CompOpp r)) l fuel lo hi n) = BsPanic \/
    exists y1, wbs_loop (fun s q => let (s', r) := c' s p q in (s', option_map CompOpp r)) l fuel lo hi y =
                 (fst (wbs_loop (fun w q => let (w', r) := c w p q in (w', option_map CompOpp r)) l fuel lo hi n), y1) /\
               R x (snd (wbs_loop (fun w q => let (w', r) := c w p q in (w', option_map CompOpp r)) l fuel lo hi n)) y1.
  Proof using Hc.
    induction fuel as [|fuel IH]; intros l lo hi n y Hr; cbn [wbs_loop]; [right; eauto|].
    destruct (lo <? hi); [|right; eauto]. destruct (nth_error l _) as [q|]; [|left; reflexivity].
    destruct (Hc x n y p q Hr) as [N|(y1 & E1 & R1)]; destruct (c n p q) as [n1 r]; cbn [fst snd] in *.
    - subst r. left. reflexivity.
    - rewrite E1. destruct r as [[]|]; cbn [option_map CompOpp]; [right; eauto|apply IH; exact R1|apply IH; exact R1|left; reflexivity].
  Qed.
  Lemma rbind_sim o n o' (k : S1 -> out S1 * nat) (k' : S2 -> out S2) : rout o n o' ->
    (forall x y, R x n y -> rout (fst (k x)) (snd (k x)) (k' y)) ->
    rout (fst (match o with Cont s => k s | Stop s => (Stop s, n) | Panic s => (Panic s, n) | NoFuel => (NoFuel, n) end))
      (snd (match o with Cont s => k s | Stop s => (Stop s, n) | Panic s => (Panic s, n) | NoFuel => (NoFuel, n) end)) (obind o' k').
  Proof using.
    intros H K. destruct o as [x|x|x|]; cbn [rout fst snd] in *; auto.
    - destruct H as (y & -> & Hr). cbn [obind]. now apply K.
    - destruct H as (y & -> & Hr). cbn [obind]. eauto.
  Qed.
  Lemma binary_sim : forall fuel x n y an bn, R x n y ->
    rout (fst (wbinary_merge c O fuel x an bn n)) (snd (wbinary_merge c O fuel x an bn n)) (gbinary c' O' fuel y an bn).
  Proof using All.
    induction fuel as [|fuel IH]; intros x n y an bn Hr; cbn [wbinary_merge gbinary]; [exact I|].
    destruct (an =? 0); [destruct (bn =? 0); [cbn; eauto|now apply Fb]|]. destruct (bn =? 0); [now apply Fa|].
    rewrite (Ha _ _ _ Hr), (Hb _ _ _ Hr). destruct (nth_error (mo_a O x) (an / 2)) as [p|]; [|exact I].
    unfold wbsearch. set (l := firstn bn (mo_b O x)).
    destruct (wbs_sim x p (S (length l)) l 0 (length l) n y Hr) as [Q|(y1 & Q & R1)].
    - destruct (wbs_loop _ l (S (length l)) 0 (length l) n) as [r n1]. cbn [fst] in Q. subst r. exact I.
    - rewrite Q. clear Q. destruct (wbs_loop _ l (S (length l)) 0 (length l) n) as [r n1]. cbn [fst snd] in *. destruct r as [bm|bi| |].
      + specialize (IH x n1 y1 (an / 2) bm R1) as H1. destruct (wbinary_merge c O fuel x (an / 2) bm n1) as [o n2]. cbn [fst snd] in H1.
        destruct o as [s1|s1|s1|]; cbn [rout] in H1; [|destruct H1 as (y2 & -> & R2); cbn; eauto|exact I|exact I].
        destruct H1 as (y2 & -> & R2). cbn [obind]. apply (rbind_sim _ _ _ (fun s2 => wbinary_merge c O fuel s2 (an - an / 2 - 1) (bn - bm - 1) n2)); [now apply Fc|]. intros s2 y3 R3. now apply IH.
      + specialize (IH x n1 y1 (an / 2) bi R1) as H1. destruct (wbinary_merge c O fuel x (an / 2) bi n1) as [o n2]. cbn [fst snd] in H1.
        destruct o as [s1|s1|s1|]; cbn [rout] in H1; [|destruct H1 as (y2 & -> & R2); cbn; eauto|exact I|exact I].
        destruct H1 as (y2 & -> & R2). cbn [obind]. apply (rbind_sim _ _ _ (fun s2 => wbinary_merge c O fuel s2 (an - an / 2 - 1) (bn - bi) n2)); [now apply Fa|]. intros s2 y3 R3. now apply IH.
      + exact I.
      + exact I.
  Qed.
  Lemma tape_sim : forall fuel x n y, R x n y ->
    rout (fst (wtape_merge c O fuel x n)) (snd (wtape_merge c O fuel x n)) (gtape c' O' fuel y).
  Proof using All.
    induction fuel as [|fuel IH]; intros x n y Hr; cbn [wtape_merge gtape]; [exact I|].
    rewrite (Ha _ _ _ Hr), (Hb _ _ _ Hr). destruct (mo_a O x) as [|p la], (mo_b O x) as [|q lb].
    - cbn. eauto.
    - now apply Fb.
    - now apply Fa.
    - destruct (Hc x n y p q Hr) as [N|(y1 & E1 & R1)]; destruct (c n p q) as [n1 r]; cbn [fst snd] in *; [subst r; exact I|].
      rewrite E1. destruct r as [[]|]; [| | |exact I]; apply (rbind_sim _ _ _ (fun s2 => wtape_merge c O fuel s2 n1)); auto.
  Qed.
  Lemma merge_sim strat x n y : R x n y -> rout (fst (wmerge c O strat x n)) (snd (wmerge c O strat x n)) (gmerge c' O' strat y).
  Proof using All.
    intros Hr. unfold wmerge, gmerge. rewrite (Ha _ _ _ Hr), (Hb _ _ _ Hr). destruct (strat _ _); [now apply tape_sim|now apply binary_sim].
  Qed.
End Sim.

Section Tie.
  Context {K : Type} (kcmp : K -> K -> comparison) (strat : nat -> nat -> bool) (L : OrdLaws kcmp).
  (** [==], [cmp] and [<] of [kcmp] that count their calls; [clone] that counts its calls *)
  Definition tick (e : work) : work := wadd e (Work 1 0).
  Definition count_code : ucode work K :=
    Ucode (fun e p => (tick e, Ret (keqb kcmp (fst p) (snd p)))) (fun e p => (tick e, Ret (kcmp (fst p) (snd p))))
          (fun e p => (tick e, Ret (match kcmp (fst p) (snd p) with Lt => true | _ => false end))).
  Definition count_clone {V} : clos work V V := fun e v => (wadd e (Work 0 1), Ret v).
  Notation u := count_code.

  Lemma wadd_assoc a b c : wadd a (wadd b c) = wadd (wadd a b) c.
  Proof using. unfold wadd. cbn [w_cmp w_copy]. f_equal; lia. Qed.
  Lemma wadd_0 a : wadd a wk0 = a.
  Proof using. destruct a as [i j]. unfold wadd, wk0. cbn [w_cmp w_copy]. f_equal; lia. Qed.
  (** [x], if copies are exact ([ex]), in any case the comparisons *)
  Context (ex : bool).
  Definition agree (e0 w e : work) : Prop := w_cmp e = w_cmp e0 + w_cmp w /\ (ex = true -> w_copy e = w_copy e0 + w_copy w).
  Lemma agree_0 e : agree e wk0 e.
  Proof using. split; [|intros _]; cbn [wk0 w_cmp w_copy]; lia. Qed.
  Lemma agree_add e w : agree e w (wadd e w).
  Proof using. split; [|intros _]; reflexivity. Qed.
  Lemma agree_trans e0 w1 e1 w2 e2 : agree e0 w1 e1 -> agree e1 w2 e2 -> agree e0 (wadd w1 w2) e2.
  Proof using. intros (A1 & A2) (B1 & B2). split; [|intros Q; specialize (A2 Q); specialize (B2 Q)]; cbn [wadd w_cmp w_copy]; lia. Qed.
  (** a borrowing call that did the work it should *)
  Definition gives {Y} (e : work) (r : tally Y) (g : given_back work Y) : Prop :=
    forall y, fst r = Ok y -> exists e', g = Some (e', Ret y) /\ agree e (snd r) e'.
  Definition does {Y} (e : work) (r : tally Y) (g : done (Y * work)) : Prop :=
    forall y, fst r = Ok y -> exists e', g = Done (y, e') /\ agree e (snd r) e'.

  Lemma ucommon_count : forall a b e, ucommon u a b e =
    Some (wadd e (Work (snd (common_prefix_count kcmp a b)) 0), Ret (fst (common_prefix_count kcmp a b))).
  Proof using.
    induction a as [|x a IH]; intros [|y b] e; cbn [ucommon common_prefix_count]; try (cbn [fst snd]; now rewrite wadd_0).
    cbn [u_eq count_code fst snd then_]. destruct (keqb kcmp x y); [|reflexivity]. rewrite IH. destruct (common_prefix_count kcmp a b) as [n c].
    cbn [then_ fst snd]. f_equal. f_equal. unfold tick, wadd. cbn [w_cmp w_copy]. f_equal; lia.
  Qed.
  Lemma uhead_count {S V X} (s : S * work) (a : rtree K V) (b : rtree K X) :
    head_cmp kcmp a b = None \/ uhead_cmp u s a b = ((fst s, tick (snd s)), head_cmp kcmp a b).
  Proof using. unfold uhead_cmp, head_cmp. destruct (t_prefix a), (t_prefix b); auto. Qed.

  Section Mat.
    Context {V : Type}.
    Lemma uclone_count (v : option V) e : uclone count_clone v e = Some (wadd e (Work 0 (cloned v)), Ret v).
    Proof using. destruct v; cbn [uclone cloned]; [reflexivity|now rewrite wadd_0]. Qed.
    Lemma umat_count : forall (t : rtree K V) n e t', mat_short t n = Ok t' -> umat count_clone t n e = Some (wadd e (Work 0 (t_vals t)), Ret t').
    Proof using.
      induction t as [p v c IH] using rtree_ind'. intros n e t'. cbn [umat mat_short t_vals].
      destruct (n <? length p); [|discriminate]. rewrite uclone_count. cbn [then_].
      set (go1 := fix go (l : list (rtree K V)) (e : work) : given_back work (list (rtree K V)) := _).
      set (go2 := fix go (l : list (rtree K V)) : res (list (rtree K V)) := _). intros Q.
      destruct (go2 c) as [c'| |] eqn:Q2; [|discriminate..]. injection Q as <-.
      enough (G : forall e, go1 c e = Some (wadd e (Work 0 (list_sum (map t_vals c))), Ret c')).
      { rewrite G. cbn [then_]. f_equal. f_equal. unfold wadd. cbn [w_cmp w_copy]. f_equal; lia. }
      clear e. revert c' Q2. induction IH as [|x l Hx _ IHl]; intros c' Q2 e.
      - injection Q2 as <-. cbn [go1 map list_sum fold_right]. fold wk0. now rewrite wadd_0.
      - cbn [go1 go2] in *. fold go1. fold go2 in Q2. destruct (mat_short x 0) as [x'| |] eqn:Qx; [|discriminate..]. cbn [rbind] in Q2.
        destruct (go2 l) as [l'| |]; [|discriminate..]. injection Q2 as <-. rewrite (Hx 0 e x' Qx). cbn [then_]. rewrite (IHl l' eq_refl). cbn [then_ map list_sum fold_right].
        f_equal. f_equal. unfold wadd, list_sum. cbn [w_cmp w_copy]. f_equal; lia.
    Qed.
    Lemma umat_gives (t : rtree K V) n e : gives e (kmat_short t n) (umat count_clone t n e).
    Proof using. intros t' Q. cbn [kmat_short fst snd] in *. eexists. split; [now apply umat_count|apply agree_add]. Qed.
    Lemma umat_all_gives (l : list (rtree K V)) : forall e, gives e (kmat_all l) (umat_all count_clone l e).
    Proof using.
      intros e l' Q. cbn [kmat_all fst snd] in *. enough (G : umat_all count_clone l e = Some (wadd e (Work 0 (vals l)), Ret l')) by (eexists; split; [exact G|apply agree_add]).
      revert e l' Q. induction l as [|x l IH]; intros e l' Q; cbn [umat_all mat_all vals map list_sum fold_right] in *.
      - injection Q as <-. fold wk0. now rewrite wadd_0.
      - destruct (mat_short x 0) as [x'| |] eqn:Qx; [|discriminate..]. cbn [rbind] in Q. destruct (mat_all l) as [l2| |]; [|discriminate..]. injection Q as <-.
        rewrite (umat_count x 0 e x' Qx). cbn [then_]. rewrite (IH _ l2 eq_refl). cbn [then_]. f_equal. f_equal. unfold wadd, vals, list_sum. cbn [w_cmp w_copy map]. f_equal; lia.
    Qed.
  End Mat.
  Lemma usort2_gives {V} (a b : rtree K V) e : has_head a = true -> has_head b = true -> gives e (ksort_heads kcmp [a; b]) (usort2 u a b e).
  Proof using L.
    intros Ha Hb c Q. cbn [ksort_heads fst snd] in *. unfold has_head, sort_heads, usort2 in *. cbn [forallb] in *. unfold has_head in *.
    destruct (t_prefix a) as [|x p] eqn:Pa; [discriminate|]. destruct (t_prefix b) as [|y q] eqn:Pb; [discriminate|].
    cbn [andb] in *. rewrite orb_true_r in Q. injection Q as <-. cbn [u_lt count_code then_ fst snd]. eexists. split; [|apply agree_add]. f_equal. f_equal. f_equal.
    unfold sort_by. cbn [fold_right sort_insert]. unfold head_ord, head_cmp. rewrite Pa, Pb, (ord_opp L x y). now destruct (kcmp x y).
  Qed.

  (** what a merge carries: the work since [e0] *)
  Definition carries {S} (e0 : work) (x : S * work) (n : nat) (y : S * work) : Prop :=
    fst y = fst x /\ agree e0 (wadd (Work n 0) (snd x)) (snd y).
  Lemma carries_cmp {S V X} (e0 : work) (x : S * work) n y (p : rtree K V) (q : rtree K X) : carries e0 x n y ->
    snd (kcount kcmp n p q) = None \/ exists y1, uhead_cmp u y p q = (y1, snd (kcount kcmp n p q)) /\ carries e0 x (fst (kcount kcmp n p q)) y1.
  Proof using.
    intros (E1 & A). cbn [kcount fst snd]. destruct (uhead_count y p q) as [N|Q]; [auto|]. right. eexists. split; [exact Q|]. split; [exact E1|].
    cbn [snd fst]. destruct A as (A1 & A2). unfold tick. split; [|intros F; specialize (A2 F)]; cbn [wadd w_cmp w_copy] in *; lia.
  Qed.
  Lemma carries_start {S} (m : S) e : carries e (m, wk0) 0 (m, e).
  Proof using. split; [reflexivity|]. cbn [snd]. apply agree_0. Qed.

  Section InPlace.
    Context {V X : Type} (rec : rtree K V -> rtree K X -> tally (rtree K V)) (rec' : rtree K V -> rtree K X -> work -> done (rtree K V * work)).
    Context (REC : forall a b e, does e (rec a b) (rec' a b e)).
    Context (ta tb cb : bool) (conv : rtree K X -> option (rtree K V)) (conv' : rtree K X -> work -> given_back work (rtree K V)).
    Context (CV : tb = true -> cb = true /\ forall t e t', conv t = Some t' -> conv' t e = Some (wadd e (Work 0 (t_vals t)), Ret t')).
    Lemma uextend_count : tb = true -> forall n bd b e,
      let '(bd', b', ok) := bd_extend conv n bd b in
      ok = true -> uextend conv' n bd b e = Cont (MkIpr bd' b', wadd e (Work 0 (vals (firstn n b)))).
    Proof using CV.
      intros T. destruct (CV T) as (_ & C). induction n as [|n IH]; intros bd b e; cbn [bd_extend uextend firstn].
      - intros _. cbn [vals map list_sum fold_right]. unfold vals. cbn. fold wk0. now rewrite wadd_0.
      - destruct b as [|y b]; [intros _; unfold vals; cbn; fold wk0; now rewrite wadd_0|]. destruct (conv y) as [y'|] eqn:Qy; [|discriminate].
        specialize (IH (bd_push bd y') b (wadd e (Work 0 (t_vals y)))). destruct (bd_extend conv n (bd_push bd y') b) as [[bd' b'] ok]. intros ->.
        rewrite (C y e y' Qy), (IH eq_refl). f_equal. f_equal. unfold vals, wadd, list_sum. cbn [w_cmp w_copy map fold_right]. f_equal; lia.
    Qed.
    Lemma uchildren_with_does a b e : does e (kchildren_with kcmp strat rec ta tb cb conv a b) (uchildren_with u strat rec' ta tb conv' a b e).
    Proof using REC CV.
      unfold kchildren_with, uchildren_with.
      assert (M : rout (carries e) (fst (wmerge (kcount kcmp) (kop_with kcmp rec ta tb cb conv) strat (ipr_new a b, wk0) 0))
                    (snd (wmerge (kcount kcmp) (kop_with kcmp rec ta tb cb conv) strat (ipr_new a b, wk0) 0))
                    (gmerge (uhead_cmp u) (uop_with rec' ta tb conv') strat (ipr_new a b, e))).
      { apply merge_sim.
        - intros [m w] n [m' e'] (E1 & _). cbn [fst] in E1. subst m'. reflexivity.
        - intros [m w] n [m' e'] (E1 & _). cbn [fst] in E1. subst m'. reflexivity.
        - intros x n y p q H. now apply carries_cmp.
        - intros [m w] n [m' e'] k (E1 & A). cbn [fst snd] in *. subst m'. eexists. split; [reflexivity|]. split; [reflexivity|exact A].
        - intros [m w] n [m' e'] k (E1 & A). cbn [fst snd] in *. subst m'. cbn [kop_with uop_with mo_from_b fst snd ipr_msm adv_b]. unfold uadv_b, ipr_adv_b. cbn [fst snd].
          destruct (Bool.bool_dec tb true) as [T|T].
          + pose proof (proj1 (CV T)) as Cb. pose proof (uextend_count T k (ipr_a m) (ipr_b m) e') as U. rewrite T, Cb. cbn [andb].
            destruct (bd_extend conv k (ipr_a m) (ipr_b m)) as [[bd b'] ok]. destruct ok; [|exact I]. cbn [owork rout]. rewrite (U eq_refl). eexists. split; [reflexivity|].
            split; [reflexivity|]. cbn [snd]. rewrite wadd_assoc. eapply agree_trans; [exact A|]. apply agree_add.
          + apply Bool.not_true_is_false in T. rewrite T. cbn [andb owork rout]. eexists. split; [reflexivity|]. split; [reflexivity|]. cbn [snd]. fold wk0. now rewrite wadd_0.
        - intros [m w] n [m' e'] (E1 & A). cbn [fst snd] in *. subst m'. cbn [kop_with uop_with mo_coll]. unfold kcoll_with, ucoll_with.
          destruct (bd_src (ipr_a m)) as [|x a']; [exact I|]. destruct (ipr_b m) as [|y b']; [exact I|].
          specialize (REC x y e'). destruct (rec x y) as [r w1]. destruct r as [t| |]; [|exact I|exact I].
          destruct (REC t eq_refl) as (e1 & -> & A1). cbn [snd] in A1. cbn [obind ipr_msm adv_a adv_b owork rout]. eexists. split; [reflexivity|].
          split; [reflexivity|]. cbn [snd]. rewrite wadd_assoc. eapply agree_trans; eauto.
        - apply carries_start. }
      destruct (wmerge _ _ _ _ _) as [o n]. cbn [fst snd] in M. intros y Q. destruct o as [[m w]|[m w]|[m w]|]; cbn [collect_work fst snd rout] in *; try discriminate; injection Q as <-;
        destruct M as ([m' e'] & -> & (E1 & A)); cbn [fst snd to_done] in *; subst m'; eauto.
    Qed.
  End InPlace.
  Lemma does_fuel {Y} e w (g : done (Y * work)) : does e (OutOfFuel, w) g.
  Proof using. discriminate. Qed.
  Lemma does_finish {V} (p : list K) (v : option V) e (r : tally (list (rtree K V))) g : does e r g ->
    does e (tmap t_unsplit (tbind r (fun c => tret (Node p v c)))) (ufinish p v g).
  Proof using.
    intros H y Q. unfold tmap, tbind in *. destruct (fst r) as [c| |] eqn:Qr; [|discriminate..]. cbn [fst snd rmap tret] in *. injection Q as <-.
    destruct (H c Qr) as (e' & -> & A). cbn [ufinish]. eexists. split; [reflexivity|]. now rewrite wadd_0.
  Qed.
  Lemma does_spend {Y} e w e' (r : tally Y) g : agree e w e' -> does e' r g -> does e (spend w r) g.
  Proof using. intros A H y Q. destruct (H y Q) as (e2 & -> & A2). eexists. split; [reflexivity|]. cbn [spend snd]. eapply agree_trans; eauto. Qed.
  Lemma tmap_spend {Y Z} (f : Y -> Z) w r : tmap f (spend w r) = spend w (tmap f r).
  Proof using. reflexivity. Qed.
  Lemma tmap_bind {Y Z Z'} (f : Z -> Z') (r : tally Y) k : tmap f (tbind r k) = tbind r (fun y => tmap f (k y)).
  Proof using. unfold tmap, tbind. destruct (fst r); reflexivity. Qed.
  Lemma does_lift {V Y} (self : rtree K V) e (r : tally Y) g k k' : gives e r g -> (forall y e', fst r = Ok y -> does e' (k y) (k' y e')) ->
    does e (tbind r k) (ulift self g k').
  Proof using.
    intros G H y Q. unfold tbind in *. destruct (fst r) as [c| |] eqn:Qr; [|discriminate..]. destruct (G c Qr) as (e' & -> & A). cbn [ulift].
    destruct (H c e' eq_refl y Q) as (e2 & -> & A2). eexists. split; [reflexivity|]. cbn [snd]. eapply agree_trans; eauto.
  Qed.
  Lemma does_split {V} (self : rtree K V) n e k k' : (forall y, t_split self n = Ok y -> does e (k y) (k' y)) ->
    does e (tbind (t_split self n, wk0) k) (usplit self n e k').
  Proof using.
    intros H. unfold tbind, usplit. cbn [fst snd]. destruct (t_split self n) as [s| |]; [|discriminate..]. intros y Q. destruct (H s eq_refl y Q) as (e2 & -> & A2).
    eexists. split; [reflexivity|]. cbn [snd]. change (wadd wk0 (snd (k s))) with (Work (0 + w_cmp (snd (k s))) (0 + w_copy (snd (k s)))). cbn [plus]. now destruct (snd (k s)).
  Qed.
  Lemma does_ret {V} e (t : rtree K V) : does e (tmap t_unsplit (tret t)) (Done (t_unsplit t, e)).
  Proof using. intros y [= <-]. eexists. split; [reflexivity|apply agree_0]. Qed.

  Lemma no_count {V X : Type} : false = true -> false = true /\ forall (t : rtree K X) e (t' : rtree K V), NoConverter t = Some t' -> uno_conv t e = Some (wadd e (Work 0 (t_vals t)), Ret t').
  Proof using. discriminate. Qed.

  Section OuterWith.
    Context {V : Type} (f : V -> V -> V * bool) (f' : mclos work V V).
    (** the closure does what [f] does and compares no keys; if copies are counted, it does not clone *)
    Definition follows_f {V X} (f : V -> X -> V * bool) (f' : mclos work V X) : Prop :=
      forall e v w, exists e', f' e v w = (e', fst (f v w), Ret (snd (f v w))) /\ agree e wk0 e'.
    Context (F : follows_f f f').
    Lemma uupd_outer_count (v w : option V) e : exists e', uupd_outer count_clone f' v w e = (upd_outer f v w, e', true) /\ agree e (Work 0 (clone_upd v w)) e'.
    Proof using F.
      destruct w as [w|], v as [v|]; cbn [uupd_outer upd_outer clone_upd count_clone]; try (eexists; split; [reflexivity|apply agree_0]).
      - unfold ucall. destruct (F e v w) as (e' & -> & A). destruct (f v w) as [v' []]; cbn [fst snd]; eauto.
      - eexists. split; [reflexivity|]. apply agree_add.
    Qed.
    Lemma conv_count : true = true -> true = true /\ forall (t : rtree K V) e t', mat_conv t = Some t' -> umat count_clone t 0 e = Some (wadd e (Work 0 (t_vals t)), Ret t').
    Proof using.
      intros _. split; [reflexivity|]. intros t e t' Q. unfold mat_conv in Q. destruct (mat_short t 0) as [x| |] eqn:Qx; [|discriminate..]. injection Q as <-. now apply umat_count.
    Qed.
    Lemma uouter_with_does : forall fuel self that e, does e (kouter_with kcmp strat f fuel self that) (uouter_with u strat count_clone f' fuel self that e).
    Proof using L F.
      induction fuel as [|fuel IH]; intros self that e; [apply does_fuel|]. cbn [kouter_with uouter_with].
      rewrite ucommon_count. destruct (common_prefix_count kcmp (t_prefix self) (t_prefix that)) as [n c]. cbn [fst snd ulift].
      pose proof (fun a b e => uchildren_with_does _ _ IH true true true mat_conv _ conv_count a b e) as CH.
      eapply does_spend; [apply agree_add|]. set (e1 := wadd e (Work c 0)).
      destruct (n =? length (t_prefix self)) eqn:Q1, (n =? length (t_prefix that)) eqn:Q2; cbn [andb].
      - destruct (uupd_outer_count (t_value self) (t_value that) e1) as (e2 & -> & A). cbn [uvalue]. rewrite tmap_spend. eapply does_spend; [exact A|]. apply does_finish, CH.
      - rewrite tmap_bind. apply does_lift; [apply umat_gives|]. intros t' e2 _. apply does_finish, CH.
      - rewrite tmap_bind. apply does_split. intros s _. destruct (uupd_outer_count (t_value s) (t_value that) e1) as (e2 & -> & A). cbn [uvalue].
        rewrite tmap_spend. eapply does_spend; [exact A|]. apply does_finish, CH.
      - rewrite tmap_bind. apply does_split. intros s Qs. rewrite tmap_bind. apply does_lift; [apply umat_gives|]. intros t' e2 Qt.
        destruct self as [p v cs]. cbn [t_split] in Qs. destruct (Nat.ltb_spec n (length p)) as [Ln|]; [|discriminate].
        injection Qs as [= <-]. cbn [t_children app t_prefix t_value]. rewrite tmap_bind. apply does_lift.
        + apply usort2_gives; [|eapply mat_head; exact Qt]. unfold has_head. cbn [t_prefix]. destruct (skipn n p) eqn:Q; [|reflexivity].
          apply (f_equal (@length K)) in Q. rewrite skipn_length in Q. cbn [length] in Q. lia.
        + intros c' e3 _. apply does_ret.
    Qed.
  End OuterWith.

  Section InnerLeftWith.
    Context {V X : Type} (f : V -> X -> V * bool) (f' : mclos work V X) (F : follows_f f f').
    Lemma uupd_inner_count (v : option V) (w : option X) e : exists e', uupd_inner f' v w e = (upd_inner f v w, e', true) /\ agree e wk0 e'.
    Proof using F.
      destruct v as [v|], w as [w|]; cbn [uupd_inner upd_inner]; try (eexists; split; [reflexivity|apply agree_0]).
      unfold ucall. destruct (F e v w) as (e' & -> & A). destruct (f v w) as [v' []]; cbn [fst snd]; eauto.
    Qed.
    Lemma uupd_left_count (v : option V) (w : option X) e : exists e', uupd_left f' v w e = (upd_left f v w, e', true) /\ agree e wk0 e'.
    Proof using F.
      destruct v as [v|], w as [w|]; cbn [uupd_left upd_left]; try (eexists; split; [reflexivity|apply agree_0]).
      unfold ucall. destruct (F e v w) as (e' & -> & A). destruct (f v w) as [v' []]; cbn [fst snd]; eauto.
    Qed.
    Lemma does_step0 {Y} e e' (r : tally Y) g : agree e wk0 e' -> does e' r g -> does e r g.
    Proof using.
      intros A H y Q. destruct (H y Q) as (e2 & -> & A2). eexists. split; [reflexivity|]. destruct A as (A1 & A3), A2 as (B1 & B2).
      split; [|intros Z; specialize (A3 Z); specialize (B2 Z)]; cbn [wk0 w_cmp w_copy] in *; lia.
    Qed.
    Lemma uinner_with_does : forall fuel self that e, does e (kinner_with kcmp strat f fuel self that) (uinner_with u strat count_clone f' fuel self that e).
    Proof using F.
      induction fuel as [|fuel IH]; intros self that e; [apply does_fuel|]. cbn [kinner_with uinner_with].
      rewrite ucommon_count. destruct (common_prefix_count kcmp (t_prefix self) (t_prefix that)) as [n c]. cbn [fst snd ulift].
      pose proof (fun a b e => uchildren_with_does _ _ IH false false false NoConverter _ no_count a b e) as CH.
      eapply does_spend; [apply agree_add|]. set (e1 := wadd e (Work c 0)).
      destruct (n =? length (t_prefix self)) eqn:Q1, (n =? length (t_prefix that)) eqn:Q2; cbn [andb].
      - destruct (uupd_inner_count (t_value self) (t_value that) e1) as (e2 & -> & A). cbn [uvalue]. eapply does_step0; [exact A|]. apply does_finish, CH.
      - rewrite tmap_bind. apply does_lift; [apply umat_gives|]. intros t' e2 _. apply does_finish, CH.
      - rewrite tmap_bind. apply does_split. intros s _. apply does_finish, CH.
      - apply does_ret.
    Qed.
    Lemma uleft_with_does : forall fuel self that e, does e (kleft_with kcmp strat f fuel self that) (uleft_with u strat count_clone f' fuel self that e).
    Proof using F.
      induction fuel as [|fuel IH]; intros self that e; [apply does_fuel|]. cbn [kleft_with uleft_with].
      rewrite ucommon_count. destruct (common_prefix_count kcmp (t_prefix self) (t_prefix that)) as [n c]. cbn [fst snd ulift].
      pose proof (fun a b e => uchildren_with_does _ _ IH true false false NoConverter _ no_count a b e) as CH.
      eapply does_spend; [apply agree_add|]. set (e1 := wadd e (Work c 0)).
      destruct (n =? length (t_prefix self)) eqn:Q1, (n =? length (t_prefix that)) eqn:Q2; cbn [andb].
      - destruct (uupd_left_count (t_value self) (t_value that) e1) as (e2 & -> & A). cbn [uvalue]. eapply does_step0; [exact A|]. apply does_finish, CH.
      - rewrite tmap_bind. apply does_lift; [apply umat_gives|]. intros t' e2 _. apply does_finish, CH.
      - rewrite tmap_bind. apply does_split. intros s _. apply does_finish, CH.
      - apply does_ret.
    Qed.
  End InnerLeftWith.
  Section PrefixWith.
    Context {V X : Type} (f : X -> bool) (f' : clos work X bool) (F : forall e w, f' e w = (e, Ret (f w))).
    Lemma uhit_count (w : option X) e : uhit f' w e = Some (e, Ret (hit f w)).
    Proof using F. destruct w as [w|]; cbn [uhit hit]; [now rewrite F|reflexivity]. Qed.
    Lemma uremove_with_does : forall fuel (self : rtree K V) that e, does e (kremove_with kcmp strat f fuel self that) (uremove_with u strat count_clone f' fuel self that e).
    Proof using F.
      induction fuel as [|fuel IH]; intros self that e; [apply does_fuel|]. cbn [kremove_with uremove_with].
      rewrite ucommon_count. destruct (common_prefix_count kcmp (t_prefix self) (t_prefix that)) as [n c]. cbn [fst snd ulift].
      pose proof (fun a b e => uchildren_with_does _ _ IH true false false NoConverter _ no_count a b e) as CH.
      eapply does_spend; [apply agree_add|]. set (e1 := wadd e (Work c 0)).
      destruct (n =? length (t_prefix self)) eqn:Q1, (n =? length (t_prefix that)) eqn:Q2; cbn [andb]; rewrite ?uhit_count; cbn [ulift].
      - destruct (hit f (t_value that)); [apply does_ret|]. apply does_finish, CH.
      - rewrite tmap_bind. apply does_lift; [apply umat_gives|]. intros t' e2 _. apply does_finish, CH.
      - destruct (hit f (t_value that)); [apply does_ret|]. rewrite tmap_bind. apply does_split. intros s _. apply does_finish, CH.
      - apply does_ret.
    Qed.
    Lemma uretain_with_does : forall fuel (self : rtree K V) that e, does e (kretain_with kcmp strat f fuel self that) (uretain_with u strat count_clone f' fuel self that e).
    Proof using F.
      induction fuel as [|fuel IH]; intros self that e; [apply does_fuel|]. cbn [kretain_with uretain_with].
      rewrite ucommon_count. destruct (common_prefix_count kcmp (t_prefix self) (t_prefix that)) as [n c]. cbn [fst snd ulift].
      pose proof (fun a b e => uchildren_with_does _ _ IH false false false NoConverter _ no_count a b e) as CH.
      eapply does_spend; [apply agree_add|]. set (e1 := wadd e (Work c 0)).
      destruct (n =? length (t_prefix self)) eqn:Q1, (n =? length (t_prefix that)) eqn:Q2; cbn [andb]; rewrite ?uhit_count; cbn [ulift].
      - destruct (hit f (t_value that)); [apply does_ret|]. apply does_finish, CH.
      - rewrite tmap_bind. apply does_lift; [apply umat_gives|]. intros t' e2 _. apply does_finish, CH.
      - destruct (hit f (t_value that)); [apply does_ret|]. rewrite tmap_bind. apply does_split. intros s _. apply does_finish, CH.
      - apply does_ret.
    Qed.
  End PrefixWith.

  (** ** The borrowing combinations *)
  Lemma gives_then {Y Z} e (r : tally Y) g (k : Y -> tally Z) k' : gives e r g -> (forall y e', fst r = Ok y -> gives e' (k y) (k' y e')) ->
    gives e (tbind r k) (then_ g k').
  Proof using.
    intros G H y Q. unfold tbind in *. destruct (fst r) as [c| |] eqn:Qr; [|discriminate..]. destruct (G c Qr) as (e' & -> & A). cbn [then_].
    destruct (H c e' eq_refl y Q) as (e2 & -> & A2). eexists. split; [reflexivity|]. cbn [snd]. eapply agree_trans; eauto.
  Qed.
  Lemma gives_spend {Y} e w e' (r : tally Y) g : agree e w e' -> gives e' r g -> gives e (spend w r) g.
  Proof using. intros A H y Q. destruct (H y Q) as (e2 & -> & A2). eexists. split; [reflexivity|]. cbn [spend snd]. eapply agree_trans; eauto. Qed.
  Lemma gives_ret {Y} e (y : Y) : gives e (tret y) (Some (e, Ret y)).
  Proof using. intros y' [= <-]. eexists. split; [reflexivity|apply agree_0]. Qed.
  Lemma gives_built {V} (p : list K) (v : option V) e r g : gives e r g -> gives e (tmap t_unsplit (tbind r (fun c => tret (Node p v c)))) (ubuilt p v g).
  Proof using. intros H. rewrite tmap_bind. unfold ubuilt. apply gives_then; [exact H|]. intros y e' _. apply gives_ret. Qed.
  Section Pure.
    Context {V X : Type} (rec : rtree K V -> rtree K X -> tally (rtree K V)) (rec' : rtree K V -> rtree K X -> work -> given_back work (rtree K V)).
    Context (REC : forall a b e, gives e (rec a b) (rec' a b e)).
    Context (ta tb c_a c_b : bool) (ca : rtree K V -> option (rtree K V)) (ca' : rtree K V -> work -> given_back work (rtree K V)).
    Context (cb : rtree K X -> option (rtree K V)) (cb' : rtree K X -> work -> given_back work (rtree K V)).
    Context (CA : ta = true -> c_a = true /\ forall t e t', ca t = Some t' -> ca' t e = Some (wadd e (Work 0 (t_vals t)), Ret t')).
    Context (CB : tb = true -> c_b = true /\ forall t e t', cb t = Some t' -> cb' t e = Some (wadd e (Work 0 (t_vals t)), Ret t')).
    Lemma upush_count {Y} (conv : rtree K Y -> option (rtree K V)) (conv' : rtree K Y -> work -> given_back work (rtree K V)) :
      (forall t e t', conv t = Some t' -> conv' t e = Some (wadd e (Work 0 (t_vals t)), Ret t')) ->
      forall l (a : list (rtree K V)) (b : list (rtree K X)) r e,
      snd (push_all conv l r) = true -> upush conv' l a b r e = Cont (MkVs a b (fst (push_all conv l r)), wadd e (Work 0 (vals l))).
    Proof using.
      intros C. induction l as [|y l IH]; intros a b r e; cbn [upush push_all].
      - intros _. cbn [fst]. change (vals (@nil (rtree K Y))) with 0. fold wk0. now rewrite wadd_0.
      - destruct (conv y) as [y'|] eqn:Qy; [|discriminate]. intros H. rewrite (C y e y' Qy), (IH a b _ _ H). f_equal. f_equal.
        unfold vals, wadd, list_sum. cbn [w_cmp w_copy map fold_right]. f_equal; lia.
    Qed.
    Lemma uchildren_gives a b e : gives e (kchildren_pure kcmp strat rec ta tb c_a c_b ca cb a b) (uchildren u strat rec' ta tb ca' cb' a b e).
    Proof using REC CA CB.
      unfold kchildren_pure, uchildren.
      assert (M : rout (carries e) (fst (wmerge (kcount kcmp) (kop_pure kcmp rec ta tb c_a c_b ca cb) strat (vs_new a b, wk0) 0))
                    (snd (wmerge (kcount kcmp) (kop_pure kcmp rec ta tb c_a c_b ca cb) strat (vs_new a b, wk0) 0))
                    (gmerge (uhead_cmp u) (uop_pure rec' ta tb ca' cb') strat (vs_new a b, e))).
      { apply merge_sim.
        - intros [m w] n [m' e'] (E1 & _). cbn [fst] in E1. subst m'. reflexivity.
        - intros [m w] n [m' e'] (E1 & _). cbn [fst] in E1. subst m'. reflexivity.
        - intros x n y p q H. now apply carries_cmp.
        - intros [m w] n [m' e'] k (E1 & A). cbn [fst snd] in *. subst m'. cbn [kop_pure uop_pure mo_from_a fst snd vs_msm adv_a]. unfold uvs_adv_a, vs_adv_a, si_take_front, si_drop_front. cbn [fst snd].
          destruct (Bool.bool_dec ta true) as [T|T].
          + pose proof (proj1 (CA T)) as Cc. rewrite T, Cc. cbn [andb]. destruct (k <=? length (vs_a m)); [|exact I].
            pose proof (upush_count ca ca' (proj2 (CA T)) (firstn k (vs_a m)) (skipn k (vs_a m)) (vs_b m) (vs_r m) e') as U.
            destruct (push_all ca (firstn k (vs_a m)) (vs_r m)) as [r ok]. destruct ok; [|exact I]. cbn [owork rout]. rewrite (U eq_refl). eexists. split; [reflexivity|].
            split; [reflexivity|]. cbn [snd]. rewrite wadd_assoc. eapply agree_trans; [exact A|]. apply agree_add.
          + apply Bool.not_true_is_false in T. rewrite T. cbn [andb]. destruct (k <=? length (vs_a m)); [|exact I]. cbn [owork rout]. eexists. split; [reflexivity|].
            split; [reflexivity|]. cbn [snd]. fold wk0. now rewrite wadd_0.
        - intros [m w] n [m' e'] k (E1 & A). cbn [fst snd] in *. subst m'. cbn [kop_pure uop_pure mo_from_b fst snd vs_msm adv_b]. unfold uvs_adv_b, vs_adv_b, si_take_front, si_drop_front. cbn [fst snd].
          destruct (Bool.bool_dec tb true) as [T|T].
          + pose proof (proj1 (CB T)) as Cc. rewrite T, Cc. cbn [andb]. destruct (k <=? length (vs_b m)); [|exact I].
            pose proof (upush_count cb cb' (proj2 (CB T)) (firstn k (vs_b m)) (vs_a m) (skipn k (vs_b m)) (vs_r m) e') as U.
            destruct (push_all cb (firstn k (vs_b m)) (vs_r m)) as [r ok]. destruct ok; [|exact I]. cbn [owork rout]. rewrite (U eq_refl). eexists. split; [reflexivity|].
            split; [reflexivity|]. cbn [snd]. rewrite wadd_assoc. eapply agree_trans; [exact A|]. apply agree_add.
          + apply Bool.not_true_is_false in T. rewrite T. cbn [andb]. destruct (k <=? length (vs_b m)); [|exact I]. cbn [owork rout]. eexists. split; [reflexivity|].
            split; [reflexivity|]. cbn [snd]. fold wk0. now rewrite wadd_0.
        - intros [m w] n [m' e'] (E1 & A). cbn [fst snd] in *. subst m'. cbn [kop_pure uop_pure mo_coll]. unfold kcoll_pure, ucoll_pure.
          destruct (vs_a m) as [|x a']; [exact I|]. destruct (vs_b m) as [|y b']; [exact I|].
          specialize (REC x y e'). destruct (rec x y) as [r w1]. destruct r as [t| |]; [|exact I|exact I].
          destruct (REC t eq_refl) as (e1 & -> & A1). cbn [snd] in A1. cbn [rout]. eexists. split; [reflexivity|].
          split; [reflexivity|]. cbn [snd]. rewrite wadd_assoc. eapply agree_trans; eauto.
        - apply carries_start. }
      destruct (wmerge _ _ _ _ _) as [o n]. cbn [fst snd] in M. intros y Q. destruct o as [[m w]|[m w]|[m w]|]; cbn [collect_work fst snd rout] in *; try discriminate; injection Q as <-;
        destruct M as ([m' e'] & -> & (E1 & A)); cbn [fst snd] in *; subst m'; eauto.
    Qed.
  End Pure.
  Lemma gives_fuel {Y} e w (g : given_back work Y) : gives e (OutOfFuel, w) g.
  Proof using. discriminate. Qed.
  Lemma gives_step {Y Z} e w e' (x : Z) (r : tally Y) (k : Z -> work -> given_back work Y) : agree e w e' -> gives e' r (k x e') -> gives e (spend w r) (then_ (Some (e', Ret x)) k).
  Proof using. intros A H. cbn [then_]. eapply gives_spend; eauto. Qed.
  Section Outer.
    Context {V : Type} (f : V -> V -> option V) (f' : clos work (V * V) (option V)) (F : forall e v w, f' e (v, w) = (e, Ret (f v w))).
    Lemma uval_outer_count (v w : option V) e : uval_outer count_clone f' v w e = Some (wadd e (Work 0 (clone_val v w)), Ret (val_outer f v w)).
    Proof using F. destruct v as [v|], w as [w|]; cbn [uval_outer val_outer clone_val]; rewrite ?F; fold wk0; rewrite ?wadd_0; reflexivity. Qed.
    Lemma uouter_gives : forall fuel a b e, gives e (kouter_pure kcmp strat f fuel a b) (uouter u strat count_clone f' fuel a b e).
    Proof using F L.
      induction fuel as [|fuel IH]; intros a b e; [apply gives_fuel|]. cbn [kouter_pure uouter].
      rewrite ucommon_count. destruct (common_prefix_count kcmp (t_prefix a) (t_prefix b)) as [n c]. cbn [fst snd].
      pose proof (fun a b e => uchildren_gives _ _ IH true true true true mat_conv _ mat_conv _ conv_count conv_count a b e) as CH.
      apply gives_step; [apply agree_add|]. set (e1 := wadd e (Work c 0)).
      destruct (n =? length (t_prefix a)) eqn:Q1, (n =? length (t_prefix b)) eqn:Q2; cbn [andb].
      - rewrite uval_outer_count, tmap_spend. apply gives_step; [apply agree_add|]. apply gives_built, CH.
      - rewrite tmap_bind. apply gives_then; [apply umat_gives|]. intros t' e2 _. rewrite uclone_count, tmap_spend. apply gives_step; [apply agree_add|]. apply gives_built, CH.
      - rewrite tmap_bind. apply gives_then; [apply umat_gives|]. intros t' e2 _. rewrite uclone_count, tmap_spend. apply gives_step; [apply agree_add|]. apply gives_built, CH.
      - rewrite tmap_bind. apply gives_then; [apply umat_gives|]. intros a' e2 Qa. rewrite tmap_bind. apply gives_then; [apply umat_gives|]. intros b' e3 Qb.
        apply gives_built, usort2_gives; [exact (mat_head _ _ _ Qa)|exact (mat_head _ _ _ Qb)].
    Qed.
  End Outer.
  Section InnerLeft.
    Context {V X : Type}.
    Lemma uinner_gives (f : V -> X -> option V) (f' : clos work (V * X) (option V)) : (forall e v w, f' e (v, w) = (e, Ret (f v w))) ->
      forall fuel a b e, gives e (kinner_pure kcmp strat f fuel a b) (uinner u strat count_clone count_clone f' fuel a b e).
    Proof using.
      intros F. induction fuel as [|fuel IH]; intros a b e; [apply gives_fuel|]. cbn [kinner_pure uinner].
      rewrite ucommon_count. destruct (common_prefix_count kcmp (t_prefix a) (t_prefix b)) as [n c]. cbn [fst snd].
      assert (NC : forall c : rtree K V -> work -> given_back work (rtree K V), false = true -> true = true /\ forall t e t', mat_conv t = Some t' -> c t e = Some (wadd e (Work 0 (t_vals t)), Ret t')) by discriminate.
      pose proof (fun a b e => uchildren_gives _ _ IH false false true false mat_conv (fun t => umat count_clone t 0) NoConverter _ (NC _) no_count a b e) as CH.
      apply gives_step; [apply agree_add|]. set (e1 := wadd e (Work c 0)).
      destruct (n =? length (t_prefix a)) eqn:Q1, (n =? length (t_prefix b)) eqn:Q2; cbn [andb].
      - assert (U : uval_inner f' (t_value a) (t_value b) e1 = Some (e1, Ret (val_inner f (t_value a) (t_value b)))).
        { destruct (t_value a), (t_value b); cbn [uval_inner val_inner]; rewrite ?F; reflexivity. }
        rewrite U. cbn [then_]. apply gives_built, CH.
      - rewrite tmap_bind. apply gives_then; [apply umat_gives|]. intros t' e2 _. apply gives_built, CH.
      - rewrite tmap_bind. apply gives_then; [apply umat_gives|]. intros t' e2 _. apply gives_built, CH.
      - cbn [ubuilt then_]. apply gives_ret.
    Qed.
    Lemma uleft_gives (f : V -> option X -> option V) (f' : clos work (V * option X) (option V)) : (forall e v w, f' e (v, w) = (e, Ret (f v w))) ->
      forall fuel a b e, gives e (kleft_pure kcmp strat f fuel a b) (uleft u strat count_clone count_clone f' fuel a b e).
    Proof using.
      intros F. induction fuel as [|fuel IH]; intros a b e; [apply gives_fuel|]. cbn [kleft_pure uleft].
      rewrite ucommon_count. destruct (common_prefix_count kcmp (t_prefix a) (t_prefix b)) as [n c]. cbn [fst snd].
      pose proof (fun a b e => uchildren_gives _ _ IH true false true false mat_conv _ NoConverter _ conv_count no_count a b e) as CH.
      apply gives_step; [apply agree_add|]. set (e1 := wadd e (Work c 0)).
      destruct (n =? length (t_prefix a)) eqn:Q1, (n =? length (t_prefix b)) eqn:Q2; cbn [andb].
      - assert (U : uval_left f' (t_value a) (t_value b) e1 = Some (e1, Ret (val_left f (t_value a) (t_value b)))).
        { destruct (t_value a); cbn [uval_left val_left]; rewrite ?F; reflexivity. }
        rewrite U. cbn [then_]. apply gives_built, CH.
      - rewrite tmap_bind. apply gives_then; [apply umat_gives|]. intros t' e2 _. rewrite uclone_count, tmap_spend. apply gives_step; [apply agree_add|]. apply gives_built, CH.
      - rewrite tmap_bind. apply gives_then; [apply umat_gives|]. intros t' e2 _. apply gives_built, CH.
      - rewrite uclone_count, tmap_spend. apply gives_step; [apply agree_add|]. apply gives_built, umat_all_gives.
    Qed.
  End InnerLeft.

  (** ** Predicates *)
  Section Bool.
    Context {V X : Type} (rec : rtree K V -> rtree K X -> tally bool) (rec' : rtree K V -> rtree K X -> work -> given_back work bool).
    Context (REC : forall a b e, gives e (rec a b) (rec' a b e)) (ta : bool).
    Lemma ustep_rel e0 w n e (o : out (bstate (rtree K V) (rtree K X))) : agree e0 (wadd (Work n 0) w) e -> rout (carries e0) (owork w o) n (ustep o e).
    Proof using. intros A. destruct o; cbn [owork ustep rout]; auto; eexists; (split; [reflexivity|]); split; auto. Qed.
    Lemma ubool_gives a b e : gives e (kbs_merge kcmp strat rec ta a b) (ubool u strat rec' ta a b e).
    Proof using REC.
      unfold kbs_merge, ubool.
      assert (M : rout (carries e) (fst (wmerge (kcount kcmp) (kop_bool kcmp rec ta) strat (bs_new a b, wk0) 0))
                    (snd (wmerge (kcount kcmp) (kop_bool kcmp rec ta) strat (bs_new a b, wk0) 0))
                    (gmerge (uhead_cmp u) (uop_bool rec' ta) strat (bs_new a b, e))).
      { apply merge_sim.
        - intros [m w] n [m' e'] (E1 & _). cbn [fst] in E1. subst m'. reflexivity.
        - intros [m w] n [m' e'] (E1 & _). cbn [fst] in E1. subst m'. reflexivity.
        - intros x n y p q H. now apply carries_cmp.
        - intros [m w] n [m' e'] k (E1 & A). cbn [fst snd] in *. subst m'. now apply ustep_rel.
        - intros [m w] n [m' e'] k (E1 & A). cbn [fst snd] in *. subst m'. now apply ustep_rel.
        - intros [m w] n [m' e'] (E1 & A). cbn [fst snd] in *. subst m'. cbn [kop_bool uop_bool mo_coll]. unfold kcoll_bool, ucoll_bool.
          destruct (bs_a m) as [|x a']; [exact I|]. destruct (bs_b m) as [|y b']; [exact I|].
          specialize (REC x y e'). destruct (rec x y) as [r w1]. destruct r as [t| |]; [|exact I|exact I].
          destruct (REC t eq_refl) as (e1 & -> & A1). cbn [snd] in A1. apply ustep_rel. rewrite wadd_assoc. eapply agree_trans; eauto.
        - apply carries_start. }
      destruct (wmerge _ _ _ _ _) as [o n]. cbn [fst snd] in M. intros y Q. destruct o as [[m w]|[m w]|[m w]|]; cbn [collect_work fst snd rout] in *; try discriminate; injection Q as <-;
        destruct M as ([m' e'] & -> & (E1 & A)); cbn [fst snd] in *; subst m'; eauto.
    Qed.
  End Bool.
  Lemma uany_gives {Y} (p : Y -> tally bool) (p' : Y -> work -> given_back work bool) : (forall x e, gives e (p x) (p' x e)) ->
    forall l e, gives e (kany p l) (uany p' l e).
  Proof using.
    intros H. induction l as [|x l IH]; intros e; cbn [kany uany]; [apply gives_ret|]. apply gives_then; [apply H|].
    intros [] e' _; [apply gives_ret|apply IH].
  Qed.
  Lemma uall_gives {Y} (p : Y -> tally bool) (p' : Y -> work -> given_back work bool) : (forall x e, gives e (p x) (p' x e)) ->
    forall l e, gives e (kall p l) (uall p' l e).
  Proof using.
    intros H. induction l as [|x l IH]; intros e; cbn [kall uall]; [apply gives_ret|]. apply gives_then; [apply H|].
    intros [] e' _; [apply IH|apply gives_ret].
  Qed.
  Lemma gives_map {Y Z} (f : Y -> Z) e (r : tally Y) g : gives e r g -> gives e (tmap f r) (then_ g (fun y e => Some (e, Ret (f y)))).
  Proof using.
    intros H y Q. unfold tmap in Q. cbn [fst] in Q. destruct (fst r) as [c| |] eqn:Qr; [|discriminate..]. injection Q as <-.
    destruct (H c Qr) as (e' & -> & A). cbn [then_]. eexists. split; [reflexivity|exact A].
  Qed.
  Section Preds.
    Context {V X : Type}.
    Lemma uintersects_gives : forall fuel (l : rtree K V) lp (r : rtree K X) rp e,
      gives e (kintersects0 kcmp strat fuel l lp r rp) (uintersects0 u strat fuel l lp r rp e).
    Proof using.
      induction fuel as [|fuel IH]; intros l lp r rp e; [apply gives_fuel|]. cbn [kintersects0 uintersects0].
      rewrite ucommon_count. destruct (common_prefix_count kcmp lp rp) as [n c]. cbn [fst snd]. apply gives_step; [apply agree_add|].
      destruct (n =? length lp), (n =? length rp); cbn [andb].
      - destruct (match t_value l with Some _ => _ | None => _ end); [apply gives_ret|]. apply ubool_gives. intros a b e1. apply IH.
      - apply uany_gives. intros x e1. apply IH.
      - apply uany_gives. intros x e1. apply IH.
      - apply gives_ret.
    Qed.
    Lemma uis_subset_gives : forall fuel (l : rtree K V) lp (r : rtree K X) rp e,
      gives e (kis_subset0 kcmp strat fuel l lp r rp) (uis_subset0 u strat fuel l lp r rp e).
    Proof using.
      induction fuel as [|fuel IH]; intros l lp r rp e; [apply gives_fuel|]. cbn [kis_subset0 uis_subset0].
      rewrite ucommon_count. destruct (common_prefix_count kcmp lp rp) as [n c]. cbn [fst snd]. apply gives_step; [apply agree_add|].
      destruct (n =? length lp), (n =? length rp); cbn [andb].
      - destruct (match t_value l with Some _ => _ | None => _ end); [|apply gives_ret]. apply gives_map. apply ubool_gives. intros a b e1. apply gives_map. apply IH.
      - destruct (t_value l); [apply gives_ret|]. apply uall_gives. intros x e1. apply IH.
      - apply uany_gives. intros x e1. apply IH.
      - apply gives_ret.
    Qed.
  End Preds.
End Tie.

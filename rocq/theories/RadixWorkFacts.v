(** Facts about RadixWorkModel.v: counting changes nothing, and how the counts of a merge of children follow from
    those of the collisions. *)
From Verif Require Import RadixWorkModel RadixModel RadixCostModel OracleModel CostFacts FollowFacts PropRadixCost.
From Coq Require Import Lia.

Lemma wadd_0_l w : wadd wk0 w = w.
Proof. now destruct w. Qed.
Lemma fst_tbind {X Y} (x : tally X) (f : X -> tally Y) g :
  (forall a, fst (f a) = g a) -> fst (tbind x f) = rbind (fst x) g.
Proof. intros H. unfold tbind. destruct (fst x); cbn [fst rbind]; auto. Qed.
Lemma fst_spend {X} w (x : tally X) : fst (spend w x) = fst x.
Proof. reflexivity. Qed.

(** ** The merge: erasing the work *)
Definition oer {S} (o : out (S * work)) : out S :=
  match o with
  | Cont (s, _) => Cont s
  | Stop (s, _) => Stop s
  | Panic (s, _) => Panic s
  | NoFuel => NoFuel
  end.
Lemma oer_owork {S} w (o : out S) : oer (owork w o) = o.
Proof. now destruct o. Qed.

Section Erase.
  Context {S A B : Type} (O : mop S A B) (KO : mop (S * work) A B).
  Context (EA : forall s, mo_a KO s = mo_a O (fst s)) (EB : forall s, mo_b KO s = mo_b O (fst s)).
  Context (EC : mo_cmp KO = mo_cmp O).
  Context (FA : forall s n, oer (mo_from_a KO s n) = mo_from_a O (fst s) n).
  Context (FB : forall s n, oer (mo_from_b KO s n) = mo_from_b O (fst s) n).
  Context (FC : forall s, oer (mo_coll KO s) = mo_coll O (fst s)).
  Lemma binary_er fuel : forall s an bn, oer (binary_merge KO fuel s an bn) = binary_merge O fuel (fst s) an bn.
  Proof.
    induction fuel as [|fuel IH]; intros s an bn; cbn [binary_merge]; [reflexivity|].
    rewrite EA, EB, EC.
    destruct (an =? 0). { destruct (bn =? 0); [now destruct s|apply FB]. }
    destruct (bn =? 0); [apply FA|].
    destruct (nth_error _ _) as [x|]; [|now destruct s].
    destruct (bsearch _ _) as [bm|bi| |]; try now destruct s.
    - rewrite <- IH. destruct (binary_merge KO fuel s (an / 2) bm) as [[s1 w1]|[s1 w1]|[s1 w1]|]; cbn [oer obind]; try reflexivity.
      pose proof (FC (s1, w1)) as QQ; cbn [fst] in QQ; rewrite <- QQ; clear QQ. destruct (mo_coll KO (s1, w1)) as [[s2 w2]|[s2 w2]|[s2 w2]|]; cbn [oer obind]; try reflexivity.
      apply IH.
    - rewrite <- IH. destruct (binary_merge KO fuel s (an / 2) bi) as [[s1 w1]|[s1 w1]|[s1 w1]|]; cbn [oer obind]; try reflexivity.
      pose proof (FA (s1, w1) 1) as QQ; cbn [fst] in QQ; rewrite <- QQ; clear QQ. destruct (mo_from_a KO (s1, w1) 1) as [[s2 w2]|[s2 w2]|[s2 w2]|]; cbn [oer obind]; try reflexivity.
      apply IH.
  Qed.
  Lemma tape_er fuel : forall s, oer (tape_merge KO fuel s) = tape_merge O fuel (fst s).
  Proof.
    induction fuel as [|fuel IH]; intros s; cbn [tape_merge]; [reflexivity|].
    rewrite EA, EB, EC.
    destruct (mo_a O (fst s)) as [|x a], (mo_b O (fst s)) as [|y b]; try apply FA; try apply FB; [now destruct s|].
    destruct (mo_cmp O x y) as [[]|]; [| | |now destruct s].
    - rewrite <- FC. destruct (mo_coll KO s) as [[s2 w2]|[s2 w2]|[s2 w2]|]; cbn [oer obind]; try reflexivity. apply IH.
    - rewrite <- FA. destruct (mo_from_a KO s 1) as [[s2 w2]|[s2 w2]|[s2 w2]|]; cbn [oer obind]; try reflexivity. apply IH.
    - rewrite <- FB. destruct (mo_from_b KO s 1) as [[s2 w2]|[s2 w2]|[s2 w2]|]; cbn [oer obind]; try reflexivity. apply IH.
  Qed.
  Lemma merge_er strat s : oer (merge KO strat s) = merge O strat (fst s).
  Proof. unfold merge. rewrite EA, EB. destruct (strat _ _); [apply tape_er|apply binary_er]. Qed.
End Erase.

(** ** The merge: an invariant of every outcome *)
Definition oall {S} (P Q : S -> Prop) (o : out S) : Prop :=
  match o with Cont s => P s | Stop s | Panic s => Q s | NoFuel => True end.
Section All.
  Context {S A B : Type} (O : mop S A B) (P Q : S -> Prop).
  Context (PQ : forall s, P s -> Q s).
  Context (FA : forall s n, P s -> oall P Q (mo_from_a O s n)).
  Context (FB : forall s n, P s -> oall P Q (mo_from_b O s n)).
  Context (FC : forall s, P s -> oall P Q (mo_coll O s)).
  Lemma oall_bind (o : out S) (f : S -> out S) :
    oall P Q o -> (forall s, P s -> oall P Q (f s)) -> oall P Q (obind o f).
  Proof using. destruct o; cbn [oall obind]; auto. Qed.
  Lemma binary_all fuel : forall s an bn, P s -> oall P Q (binary_merge O fuel s an bn).
  Proof.
    induction fuel as [|fuel IH]; intros s an bn H; cbn [binary_merge]; [exact I|].
    destruct (an =? 0). { destruct (bn =? 0); [exact H|now apply FB]. }
    destruct (bn =? 0); [now apply FA|].
    destruct (nth_error _ _) as [x|]; [|now apply PQ].
    destruct (bsearch _ _) as [bm|bi| |]; [| |now apply PQ|exact I].
    - apply oall_bind; [now apply IH|]. intros s1 H1. apply oall_bind; [now apply FC|]. intros s2 H2. now apply IH.
    - apply oall_bind; [now apply IH|]. intros s1 H1. apply oall_bind; [now apply FA|]. intros s2 H2. now apply IH.
  Qed.
  Lemma tape_all fuel : forall s, P s -> oall P Q (tape_merge O fuel s).
  Proof.
    induction fuel as [|fuel IH]; intros s H; cbn [tape_merge]; [exact I|].
    destruct (mo_a O s) as [|x a], (mo_b O s) as [|y b]; auto.
    destruct (mo_cmp O x y) as [[]|]; [| | |now apply PQ]; (apply oall_bind; auto).
  Qed.
  Lemma merge_all strat s : P s -> oall P Q (merge O strat s).
  Proof. intros H. unfold merge. destruct (strat _ _); [now apply tape_all|now apply binary_all]. Qed.
End All.

(** ** The comparisons of a merge of children *)
Definition mcmp (an bn : nat) : nat := if (an =? 0) || (bn =? 0) then 0 else 6 * an + bn.
Section Cmp.
  Context {K : Type} (kcmp : K -> K -> comparison) {V W S : Type} (O : mop S (rtree K V) (rtree K W)).
  Lemma wtape_cmp fuel : forall s n,
    snd (wtape_merge (kcount kcmp) O fuel s n) <= n + fuel /\
    (mo_a O s = [] \/ mo_b O s = [] -> snd (wtape_merge (kcount kcmp) O fuel s n) = n).
  Proof.
    induction fuel as [|fuel IH]; intros s n; cbn [wtape_merge snd]; [split; [lia|reflexivity]|].
    destruct (mo_a O s) as [|x a], (mo_b O s) as [|y b]; cbn [snd]; try (split; [lia|reflexivity]).
    split; [|intros [H|H]; discriminate]. unfold kcount at 1.
    destruct (head_cmp kcmp x y) as [q|]; [|cbn [snd]; lia].
    destruct (match q with Eq => mo_coll O s | Lt => mo_from_a O s 1 | Gt => mo_from_b O s 1 end) as [s'|s'|s'|];
      cbn [snd]; try lia.
    pose proof (proj1 (IH s' (Datatypes.S n))). lia.
  Qed.
  Lemma wmerge_cmp strat s :
    snd (wmerge (kcount kcmp) O strat s 0) <= mcmp (length (mo_a O s)) (length (mo_b O s)).
  Proof.
    unfold wmerge, mcmp. destruct (strat _ _).
    - destruct (wtape_cmp (Datatypes.S (length (mo_a O s) + length (mo_b O s))) s 0) as [H1 H2].
      destruct (mo_a O s) as [|x a]; [rewrite H2 by auto; cbn; lia|].
      destruct (mo_b O s) as [|y b]; [rewrite H2 by auto; cbn; lia|].
      cbn [length Nat.eqb orb] in *. lia.
    - pose proof (wbinary_linear O (kcount kcmp) (fun n => n) (fun w x y => le_n _)
        (Datatypes.S (length (mo_a O s))) s (length (mo_a O s)) (length (mo_b O s)) 0) as H.
      destruct (Nat.eqb_spec (length (mo_a O s)) 0) as [E|NE].
      { rewrite E. cbn [wbinary_merge Nat.eqb]. destruct (length (mo_b O s)); cbn; lia. }
      destruct (Nat.eqb_spec (length (mo_b O s)) 0) as [E|NE'].
      { rewrite E. cbn [wbinary_merge]. destruct (length (mo_a O s)); cbn; lia. }
      cbn [orb]. cbv beta in H. exact H.
  Qed.
  Lemma wmerge_log strat s : strat (length (mo_a O s)) (length (mo_b O s)) = false ->
    snd (wmerge (kcount kcmp) O strat s 0) <= digits (length (mo_a O s)) * length (mo_b O s).
  Proof.
    intros E. unfold wmerge. rewrite E. set (an := length (mo_a O s)). set (bn := length (mo_b O s)).
    assert (H : (fun n : nat => n) (snd (wbinary_merge (kcount kcmp) O (Datatypes.S an) s an bn 0)) <= (fun n : nat => n) 0 + (fun h m => h * m) (digits an) bn).
    { apply (wbinary_cost O (kcount kcmp) (fun n => n) (fun w x y => le_n _) nat (fun h m => h * m) (fun h a => a < 2 ^ h) pred).
      - intros [|h] a H1 H2; [cbn in H1; lia|]. cbn [pred]. cbn [Nat.pow] in H1.
        pose proof (Nat.div_mod a 2 ltac:(lia)). pose proof (Nat.mod_upper_bound a 2 ltac:(lia)). lia.
      - intros [|h] a m i i' H1 H2 H3; [cbn in H1; lia|]. cbn [pred].
        assert (D : digits m <= m). { destruct m as [|m]; [cbn; lia|]. unfold digits. pose proof (Nat.log2_lt_lin (Datatypes.S m) ltac:(lia)). lia. }
        nia.
      - unfold an. destruct (length (mo_a O s)) as [|n]; [cbn; lia|]. unfold digits. rewrite Nat.add_1_r. apply (Nat.log2_spec (Datatypes.S n)). lia. }
    exact H.
  Qed.
End Cmp.

Lemma fst_collect {S X} (f : S -> X) o n : fst (collect_work f (o, n)) = to_res f (oer o).
Proof. now destruct o as [[s w]|[s w]|[s w]|]. Qed.

(** ** A count of the work: comparisons or clones *)
Record gauge := Gauge { gg : work -> nat; gg_0 : gg wk0 = 0; gg_add : forall x y, gg (wadd x y) = gg x + gg y }.
Definition g_cmp : gauge := {| gg := w_cmp; gg_0 := eq_refl; gg_add := fun _ _ => eq_refl |}.
Definition g_copy : gauge := {| gg := w_copy; gg_0 := eq_refl; gg_add := fun _ _ => eq_refl |}.
Definition total {X} (f : X -> nat) (l : list X) : nat := list_sum (map f l).
Lemma total_cons {X} (f : X -> nat) x l : total f (x :: l) = f x + total f l.
Proof. reflexivity. Qed.
Lemma total_split {X} (f : X -> nat) n l : total f l = total f (firstn n l) + total f (skipn n l).
Proof. rewrite <- (firstn_skipn n l) at 1. unfold total. now rewrite map_app, list_sum_app. Qed.
Lemma total_le {X} (f g : X -> nat) l : (forall x, In x l -> f x <= g x) -> total f l <= total g l.
Proof.
  induction l as [|x l IH]; intros H; [cbn; lia|]. rewrite !total_cons.
  pose proof (H x (or_introl eq_refl)). specialize (IH (fun y I => H y (or_intror I))). lia.
Qed.
Lemma total_add {X} (f g : X -> nat) l : total (fun x => f x + g x) l = total f l + total g l.
Proof. induction l as [|x l IH]; [reflexivity|]. rewrite !total_cons, IH. lia. Qed.
Lemma total_scale {X} (k : nat) (l : list X) : total (fun _ => k) l = k * length l.
Proof. induction l as [|x l IH]; [cbn; lia|]. rewrite total_cons, IH. cbn [length]. lia. Qed.
Lemma Forall_skipn {X} (P : X -> Prop) n l : Forall P l -> Forall P (skipn n l).
Proof. intros H. rewrite <- (firstn_skipn n l) in H. now apply Forall_app in H. Qed.
Lemma gg_bind (g : gauge) {X Y} (x : tally X) (f : X -> tally Y) a b :
  gg g (snd x) <= a -> (forall r, fst x = Ok r -> gg g (snd (f r)) <= b) -> gg g (snd (tbind x f)) <= a + b.
Proof.
  intros H1 H2. unfold tbind. destruct (fst x) as [r| |] eqn:E; cbn [snd]; [|lia..].
  rewrite gg_add. specialize (H2 r eq_refl). lia.
Qed.
Lemma gg_spend (g : gauge) {X} w (x : tally X) : gg g (snd (spend w x)) = gg g w + gg g (snd x).
Proof. apply gg_add. Qed.
Lemma gg_vals (g : gauge) {K V} (psi : rtree K V -> nat) (l : list (rtree K V)) :
  (forall y, In y l -> gg g (Work 0 (t_vals y)) <= psi y) -> gg g (Work 0 (vals l)) <= total psi l.
Proof.
  induction l as [|y l IH]; intros H.
  - change (Work 0 (vals (@nil (rtree K V)))) with wk0. rewrite gg_0. lia.
  - change (Work 0 (vals (y :: l))) with (wadd (Work 0 (t_vals y)) (Work 0 (vals l))). rewrite gg_add, total_cons.
    pose proof (H y (or_introl eq_refl)). specialize (IH (fun z I => H z (or_intror I))). lia.
Qed.

Lemma bd_extend_rest {A B} (conv : B -> option A) n : forall bd b bd' b',
  bd_extend conv n bd b = (bd', b', true) -> b' = skipn n b /\ bd_src bd' = bd_src bd.
Proof.
  induction n as [|n IH]; intros bd b bd' b'; cbn [bd_extend skipn]; [intros [= <- <-]; auto|].
  destruct b as [|y b]; [intros [= <- <-]; auto|]. destruct (conv y) as [x|]; [|discriminate].
  intros H. now apply IH in H.
Qed.

Section Children.
  Context {K : Type} (kcmp : K -> K -> comparison) (strat : nat -> nat -> bool) (g : gauge).

  (** *** in place *)
  Section InPlace.
    Context {V W : Type} (rec : rtree K V -> rtree K W -> tally (rtree K V)) (rec' : rtree K V -> rtree K W -> res (rtree K V)).
    Context (conv : rtree K W -> option (rtree K V)) (ta tb cb : bool).
    Lemma kchildren_with_er a b : (forall x y, fst (rec x y) = rec' x y) ->
      fst (kchildren_with kcmp strat rec ta tb cb conv a b) = children_with kcmp strat rec' ta tb conv a b.
    Proof.
      intros R. unfold kchildren_with, children_with, ipr_merge.
      pose proof (wmerge_follow (kop_with kcmp rec ta tb cb conv) (kcount kcmp) (fun _ _ _ => eq_refl) strat (ipr_new a b, wk0) 0) as F.
      destruct (wmerge _ _ strat _ 0) as [o n]. cbn [fst] in F. subst o. rewrite fst_collect.
      rewrite (merge_er (op_with kcmp rec' ta tb conv) (kop_with kcmp rec ta tb cb conv) (fun _ => eq_refl) (fun _ => eq_refl) eq_refl).
      - cbn [fst]. now destruct (merge _ strat _) as [s|s|s|].
      - intros s n0. apply oer_owork.
      - intros s n0. apply oer_owork.
      - intros [m w]. cbn [kop_with op_with mo_coll fst]. unfold kcoll_with, coll_with.
        destruct (bd_src (ipr_a m)) as [|av a']; [reflexivity|]. destruct (ipr_b m) as [|bv b']; [reflexivity|].
        rewrite <- (R av bv). destruct (rec av bv) as [[r| |] w1]; cbn [fst]; first [reflexivity|apply oer_owork].
    Qed.
    Context (Pa : rtree K V -> Prop) (Pb : rtree K W -> Prop) (pa : rtree K V -> nat) (pb : rtree K W -> nat).
    Lemma kchildren_with_gg a b :
      (forall x y, Pa x -> Pb y -> gg g (snd (rec x y)) <= pa x + pb y) ->
      (tb && cb = true -> forall y, Pb y -> gg g (Work 0 (t_vals y)) <= pb y) ->
      Forall Pa a -> Forall Pb b ->
      exists n, n <= mcmp (length a) (length b) /\
      (strat (length a) (length b) = false -> n <= digits (length a) * length b) /\
      gg g (snd (kchildren_with kcmp strat rec ta tb cb conv a b)) <= gg g (Work n 0) + total pa a + total pb b.
    Proof.
      intros R T HA HB. unfold kchildren_with.
      pose proof (wmerge_follow (kop_with kcmp rec ta tb cb conv) (kcount kcmp) (fun _ _ _ => eq_refl) strat (ipr_new a b, wk0) 0) as F.
      pose proof (wmerge_cmp kcmp (kop_with kcmp rec ta tb cb conv) strat (ipr_new a b, wk0)) as C.
      cbn [kop_with mo_a mo_b fst ipr_new ipr_a ipr_b bd_new bd_src] in C.
      pose proof (wmerge_log kcmp (kop_with kcmp rec ta tb cb conv) strat (ipr_new a b, wk0)) as C2.
      cbn [kop_with mo_a mo_b fst ipr_new ipr_a ipr_b bd_new bd_src] in C2.
      set (P := fun s : iprstate (rtree K V) (rtree K W) * work =>
        Forall Pa (bd_src (ipr_a (fst s))) /\ Forall Pb (ipr_b (fst s)) /\
        gg g (snd s) + total pa (bd_src (ipr_a (fst s))) + total pb (ipr_b (fst s)) <= total pa a + total pb b).
      set (Q := fun s : iprstate (rtree K V) (rtree K W) * work => gg g (snd s) <= total pa a + total pb b).
      assert (H : oall P Q (merge (kop_with kcmp rec ta tb cb conv) strat (ipr_new a b, wk0))).
      { apply merge_all.
        - intros s (_ & _ & H). unfold Q. lia.
        - intros [m w] n (H1 & H2 & H3). cbn [fst snd kop_with mo_from_a ipr_msm adv_a] in *.
          unfold ipr_adv_a. cbn [owork oall]. unfold P. cbn [fst snd ipr_a ipr_b].
          assert (E : bd_src (bd_consume (ipr_a m) n ta) = skipn n (bd_src (ipr_a m))) by (unfold bd_consume; now destruct ta).
          rewrite E. split; [now apply Forall_skipn|split; [assumption|]].
          rewrite (total_split pa n (bd_src (ipr_a m))) in H3. lia.
        - intros [m w] n (H1 & H2 & H3). cbn [fst snd kop_with mo_from_b ipr_msm adv_b] in *. unfold ipr_adv_b.
          assert (X : gg g (Work 0 (if tb && cb then vals (firstn n (ipr_b m)) else 0)) <= total pb (firstn n (ipr_b m))).
          { destruct (tb && cb) eqn:TB; [|change (Work 0 0) with wk0; rewrite gg_0; lia].
            apply gg_vals. intros y IN. apply T; [reflexivity|]. rewrite Forall_forall in H2. apply H2.
            rewrite <- (firstn_skipn n (ipr_b m)). apply in_or_app. now left. }
          rewrite (total_split pb n (ipr_b m)) in H3.
          destruct tb.
          + destruct (bd_extend conv n (ipr_a m) (ipr_b m)) as [[bd b0] ok] eqn:E. destruct ok; cbn [owork oall].
            * apply bd_extend_rest in E as [-> E]. unfold P. cbn [fst snd ipr_a ipr_b]. rewrite E.
              split; [assumption|split; [now apply Forall_skipn|]]. rewrite gg_add. lia.
            * unfold Q. cbn [snd]. rewrite gg_add. lia.
          + cbn [owork oall]. unfold P. cbn [fst snd ipr_a ipr_b].
            split; [assumption|split; [now apply Forall_skipn|]]. rewrite gg_add. lia.
        - intros [m w] (H1 & H2 & H3). cbn [fst snd kop_with mo_coll] in *. unfold kcoll_with.
          destruct (bd_src (ipr_a m)) as [|av a'] eqn:EA; [cbn [oall]; unfold Q; cbn [snd]; lia|].
          destruct (ipr_b m) as [|bv b'] eqn:EB; [cbn [oall]; unfold Q; cbn [snd]; lia|].
          pose proof (R av bv (Forall_inv H1) (Forall_inv H2)) as HR. rewrite !total_cons in H3.
          destruct (rec av bv) as [[r| |] w1]; cbn [snd] in HR; cbn [oall].
          + cbn [ipr_msm adv_a adv_b ipr_adv_a ipr_adv_b obind owork oall].
            unfold P. cbn [fst snd ipr_a ipr_b].
            assert (E : bd_src (bd_consume (MkB (bd_tgt (ipr_a m)) (r :: a') (bd_drop (ipr_a m))) 1 (negb (t_is_empty r))) = a')
              by (unfold bd_consume; now destruct (negb _)).
            rewrite E. cbn [skipn].
            split; [now inversion H1|split; [now inversion H2|]]. rewrite gg_add. lia.
          + unfold Q. cbn [snd]. rewrite gg_add. lia.
          + exact I.
        - unfold P. cbn [fst snd ipr_new ipr_a ipr_b bd_new bd_src]. rewrite gg_0. auto. }
      rewrite <- F in H. destruct (wmerge _ _ strat _ 0) as [o n]. cbn [fst snd] in *. exists n. split; [exact C|]. split; [exact C2|].
      unfold P, Q in H. destruct o as [[s w]|[s w]|[s w]|]; cbn [oall collect_work snd fst] in *; rewrite ?gg_add; lia.
    Qed.
  End InPlace.

  (** *** new *)
  Section Pure.
    Context {V W : Type} (rec : rtree K V -> rtree K W -> tally (rtree K V)) (rec' : rtree K V -> rtree K W -> res (rtree K V)).
    Context (ca : rtree K V -> option (rtree K V)) (cb : rtree K W -> option (rtree K V)) (ta tb cca ccb : bool).
    Lemma kchildren_pure_er a b : (forall x y, fst (rec x y) = rec' x y) ->
      fst (kchildren_pure kcmp strat rec ta tb cca ccb ca cb a b) = children_pure kcmp strat rec' ta tb ca cb a b.
    Proof.
      intros R. unfold kchildren_pure, children_pure, vs_merge.
      pose proof (wmerge_follow (kop_pure kcmp rec ta tb cca ccb ca cb) (kcount kcmp) (fun _ _ _ => eq_refl) strat (vs_new a b, wk0) 0) as F.
      destruct (wmerge _ _ strat _ 0) as [o n]. cbn [fst] in F. subst o. rewrite fst_collect.
      rewrite (merge_er (op_pure kcmp rec' ta tb ca cb) (kop_pure kcmp rec ta tb cca ccb ca cb) (fun _ => eq_refl) (fun _ => eq_refl) eq_refl).
      - reflexivity.
      - intros s n0. apply oer_owork.
      - intros s n0. apply oer_owork.
      - intros [m w]. cbn [kop_pure op_pure mo_coll fst]. unfold kcoll_pure, coll_pure.
        destruct (vs_a m) as [|av a']; [reflexivity|]. destruct (vs_b m) as [|bv b']; [reflexivity|].
        rewrite <- (R av bv). now destruct (rec av bv) as [[r| |] w1].
    Qed.
    Context (Pa : rtree K V -> Prop) (Pb : rtree K W -> Prop) (pa : rtree K V -> nat) (pb : rtree K W -> nat).
    Lemma kchildren_pure_gg a b :
      (forall x y, Pa x -> Pb y -> gg g (snd (rec x y)) <= pa x + pb y) ->
      (ta && cca = true -> forall x, Pa x -> gg g (Work 0 (t_vals x)) <= pa x) ->
      (tb && ccb = true -> forall y, Pb y -> gg g (Work 0 (t_vals y)) <= pb y) ->
      Forall Pa a -> Forall Pb b ->
      exists n, n <= mcmp (length a) (length b) /\
      gg g (snd (kchildren_pure kcmp strat rec ta tb cca ccb ca cb a b)) <= gg g (Work n 0) + total pa a + total pb b.
    Proof.
      intros R TA T HA HB. unfold kchildren_pure.
      pose proof (wmerge_follow (kop_pure kcmp rec ta tb cca ccb ca cb) (kcount kcmp) (fun _ _ _ => eq_refl) strat (vs_new a b, wk0) 0) as F.
      pose proof (wmerge_cmp kcmp (kop_pure kcmp rec ta tb cca ccb ca cb) strat (vs_new a b, wk0)) as C.
      cbn [kop_pure mo_a mo_b fst vs_new vs_a vs_b] in C.
      set (P := fun s : vstate (rtree K V) (rtree K W) (rtree K V) * work =>
        Forall Pa (vs_a (fst s)) /\ Forall Pb (vs_b (fst s)) /\
        gg g (snd s) + total pa (vs_a (fst s)) + total pb (vs_b (fst s)) <= total pa a + total pb b).
      set (Q := fun s : vstate (rtree K V) (rtree K W) (rtree K V) * work => gg g (snd s) <= total pa a + total pb b).
      assert (H : oall P Q (merge (kop_pure kcmp rec ta tb cca ccb ca cb) strat (vs_new a b, wk0))).
      { apply merge_all.
        - intros s (_ & _ & H). unfold Q. lia.
        - intros [m w] n (H1 & H2 & H3). cbn [fst snd kop_pure mo_from_a vs_msm adv_a] in *. unfold vs_adv_a, si_take_front, si_drop_front.
          assert (X : gg g (Work 0 (if ta && cca then vals (firstn n (vs_a m)) else 0)) <= total pa (firstn n (vs_a m))).
          { destruct (ta && cca) eqn:TB; [|change (Work 0 0) with wk0; rewrite gg_0; lia].
            apply gg_vals. intros y IN. apply TA; [reflexivity|]. rewrite Forall_forall in H1. apply H1.
            rewrite <- (firstn_skipn n (vs_a m)). apply in_or_app. now left. }
          rewrite (total_split pa n (vs_a m)) in H3.
          destruct (n <=? length (vs_a m)); destruct ta; [destruct (push_all ca _ _) as [r [|]]|..];
            cbn [owork oall]; unfold P, Q; cbn [fst snd vs_a vs_b]; rewrite gg_add;
            try (split; [now apply Forall_skipn|split; [assumption|]]); lia.
        - intros [m w] n (H1 & H2 & H3). cbn [fst snd kop_pure mo_from_b vs_msm adv_b] in *. unfold vs_adv_b, si_take_front, si_drop_front.
          assert (X : gg g (Work 0 (if tb && ccb then vals (firstn n (vs_b m)) else 0)) <= total pb (firstn n (vs_b m))).
          { destruct (tb && ccb) eqn:TB; [|change (Work 0 0) with wk0; rewrite gg_0; lia].
            apply gg_vals. intros y IN. apply T; [reflexivity|]. rewrite Forall_forall in H2. apply H2.
            rewrite <- (firstn_skipn n (vs_b m)). apply in_or_app. now left. }
          rewrite (total_split pb n (vs_b m)) in H3.
          destruct (n <=? length (vs_b m)); destruct tb; [destruct (push_all cb _ _) as [r [|]]|..];
            cbn [owork oall]; unfold P, Q; cbn [fst snd vs_a vs_b]; rewrite gg_add;
            try (split; [assumption|split; [now apply Forall_skipn|]]); lia.
        - intros [m w] (H1 & H2 & H3). cbn [fst snd kop_pure mo_coll] in *. unfold kcoll_pure.
          destruct (vs_a m) as [|av a'] eqn:EA; [cbn [oall]; unfold Q; cbn [snd]; lia|].
          destruct (vs_b m) as [|bv b'] eqn:EB; [cbn [oall]; unfold Q; cbn [snd]; lia|].
          pose proof (R av bv (Forall_inv H1) (Forall_inv H2)) as HR. rewrite !total_cons in H3.
          destruct (rec av bv) as [[r| |] w1]; cbn [snd] in HR; cbn [oall].
          + unfold P. cbn [fst snd vs_a vs_b].
            split; [now inversion H1|split; [now inversion H2|]]. rewrite gg_add. lia.
          + unfold Q. cbn [snd]. rewrite gg_add. lia.
          + exact I.
        - unfold P. cbn [fst snd vs_new vs_a vs_b]. rewrite gg_0. auto. }
      rewrite <- F in H. destruct (wmerge _ _ strat _ 0) as [o n]. cbn [fst snd] in *. exists n. split; [exact C|].
      unfold P, Q in H. destruct o as [[s w]|[s w]|[s w]|]; cbn [oall collect_work snd fst] in *; rewrite ?gg_add; lia.
    Qed.
  End Pure.

  (** *** predicates *)
  Section Bool.
    Context {V W : Type} (rec : rtree K V -> rtree K W -> tally bool) (rec' : rtree K V -> rtree K W -> res bool) (ta : bool).
    Lemma kbs_merge_er a b : (forall x y, fst (rec x y) = rec' x y) ->
      fst (kbs_merge kcmp strat rec ta a b) = bs_merge strat (op_bool kcmp rec' ta) a b.
    Proof.
      intros R. unfold kbs_merge, bs_merge.
      pose proof (wmerge_follow (kop_bool kcmp rec ta) (kcount kcmp) (fun _ _ _ => eq_refl) strat (bs_new a b, wk0) 0) as F.
      destruct (wmerge _ _ strat _ 0) as [o n]. cbn [fst] in F. subst o. rewrite fst_collect.
      rewrite (merge_er (op_bool kcmp rec' ta) (kop_bool kcmp rec ta) (fun _ => eq_refl) (fun _ => eq_refl) eq_refl).
      - reflexivity.
      - intros s n0. apply oer_owork.
      - intros s n0. apply oer_owork.
      - intros [m w]. cbn [kop_bool op_bool mo_coll fst]. unfold kcoll_bool, coll_bool.
        destruct (bs_a m) as [|av a']; [reflexivity|]. destruct (bs_b m) as [|bv b']; [reflexivity|].
        rewrite <- (R av bv). destruct (rec av bv) as [[r| |] w1]; cbn [fst]; first [reflexivity|apply oer_owork].
    Qed.
    Context (Pa : rtree K V -> Prop) (Pb : rtree K W -> Prop) (pa : rtree K V -> nat) (pb : rtree K W -> nat).
    Lemma kbs_merge_gg a b :
      (forall x y, Pa x -> Pb y -> gg g (snd (rec x y)) <= pa x + pb y) ->
      Forall Pa a -> Forall Pb b ->
      exists n, n <= mcmp (length a) (length b) /\
      gg g (snd (kbs_merge kcmp strat rec ta a b)) <= gg g (Work n 0) + total pa a + total pb b.
    Proof.
      intros R HA HB. unfold kbs_merge.
      pose proof (wmerge_follow (kop_bool kcmp rec ta) (kcount kcmp) (fun _ _ _ => eq_refl) strat (bs_new a b, wk0) 0) as F.
      pose proof (wmerge_cmp kcmp (kop_bool kcmp rec ta) strat (bs_new a b, wk0)) as C.
      cbn [kop_bool mo_a mo_b fst bs_new bs_a bs_b] in C.
      set (P := fun s : bstate (rtree K V) (rtree K W) * work =>
        Forall Pa (bs_a (fst s)) /\ Forall Pb (bs_b (fst s)) /\
        gg g (snd s) + total pa (bs_a (fst s)) + total pb (bs_b (fst s)) <= total pa a + total pb b).
      set (Q := fun s : bstate (rtree K V) (rtree K W) * work => gg g (snd s) <= total pa a + total pb b).
      assert (H : oall P Q (merge (kop_bool kcmp rec ta) strat (bs_new a b, wk0))).
      { apply merge_all.
        - intros s (_ & _ & H). unfold Q. lia.
        - intros [m w] n (H1 & H2 & H3). cbn [fst snd kop_bool mo_from_a bs_msm adv_a] in *. unfold bs_adv_a, si_drop_front.
          rewrite (total_split pa n (bs_a m)) in H3.
          destruct ta; [|destruct (n <=? length (bs_a m))]; cbn [owork oall]; unfold P, Q; cbn [fst snd bs_a bs_b];
            try (split; [now apply Forall_skipn|split; [assumption|]]); lia.
        - intros [m w] n (H1 & H2 & H3). cbn [fst snd kop_bool mo_from_b bs_msm adv_b] in *. unfold bs_adv_b, si_drop_front.
          rewrite (total_split pb n (bs_b m)) in H3.
          destruct (n <=? length (bs_b m)); cbn [owork oall]; unfold P, Q; cbn [fst snd bs_a bs_b];
            try (split; [assumption|split; [now apply Forall_skipn|]]); lia.
        - intros [m w] (H1 & H2 & H3). cbn [fst snd kop_bool mo_coll] in *. unfold kcoll_bool.
          destruct (bs_a m) as [|av a'] eqn:EA; [cbn [oall]; unfold Q; cbn [snd]; lia|].
          destruct (bs_b m) as [|bv b'] eqn:EB; [cbn [oall]; unfold Q; cbn [snd]; lia|].
          pose proof (R av bv (Forall_inv H1) (Forall_inv H2)) as HR. rewrite !total_cons in H3.
          destruct (rec av bv) as [[[|]| |] w1]; cbn [snd] in HR; cbn [oall].
          + cbn [bs_msm adv_a bs_adv_a obind owork oall]. unfold Q. cbn [snd]. rewrite gg_add. lia.
          + cbn [bs_msm adv_a adv_b]. unfold bs_adv_a, bs_adv_b, si_drop_front. rewrite EA. cbn [length Nat.leb obind bs_b bs_a skipn].
            rewrite EB. cbn [length Nat.leb owork oall skipn]. unfold P. cbn [fst snd bs_a bs_b].
            split; [now inversion H1|split; [now inversion H2|]]. rewrite gg_add. lia.
          + unfold Q. cbn [snd]. rewrite gg_add. lia.
          + exact I.
        - unfold P. cbn [fst snd bs_new bs_a bs_b]. rewrite gg_0. auto. }
      rewrite <- F in H. destruct (wmerge _ _ strat _ 0) as [o n]. cbn [fst snd] in *. exists n. split; [exact C|].
      unfold P, Q in H. destruct o as [[s w]|[s w]|[s w]|]; cbn [oall collect_work snd fst] in *; rewrite ?gg_add; lia.
    Qed.
  End Bool.
End Children.

(** Properties C69 and C70: whole programs of public calls on ArcRadixTree and LazyRadixTree.

    [arun] (HeapApi.v) runs a program on a heap of reference-counted, copy-on-write vectors, with the library's
    operations working directly on shared nodes; [prun] runs it on plain trees that share nothing; [mrun]
    (HeapApiSpec.v) runs it on mathematical mappings. [F] is fuel for recursions and loops: every sufficiently large
    F gives the same result. *)
From Coq Require Import Permutation.
From Verif Require Import RadixReach PropRadix.
From Verif Require Export HeapApiSpec HeapApiRefine.

Section C69.
  Context {K V : Type} (kcmp : K -> K -> comparison) (strat : nat -> nat -> bool) (arc : bool).
  Notation tree := (rtree K V).

  (** ** C69: sharing is invisible to the library's own operations. A program that is meaningful on plain trees runs on
      the heap without touching freed memory, gives the same answers, and every register holds exactly the tree it
      would hold if nothing were shared. *)
  Theorem C69_operations_on_shared_trees (n : nat) (os : list (api K V)) (vs : regs tree) (out : list (obs K V)) :
    prun kcmp strat os (repeat None n) = Some (vs, out) ->
    exists F0, forall F, F0 <= F -> exists st, arun kcmp strat arc F os (hinit n) = Some (st, out) /\
      forall i t, holds_tree st i t <-> rget i vs = Some t.
  Proof.
    intros H. destruct (arun_good kcmp strat arc os _ _ _ H) as (F0 & H0). exists F0. intros F Hf.
    destruct (H0 F _ Hf (init_good n)) as (st & -> & G). exists st. split; auto. intros i t. now apply good_holds.
  Qed.

  (** a snapshot taken in the middle of a program still holds, at the end, what it held, unless its own register is named *)
  Definition target (o : api K V) : list nat :=
    match o with
    | ABase o => changes o
    | ASingle _ _ j | AFilter _ _ j | AOuter _ _ _ j | AInner _ _ _ j | ALeft _ _ _ j => [j]
    | AInsert i _ _ | APrepend i _ | AOuterWith _ i _ | AInnerWith _ i _ | ALeftWith _ i _ | ARemoveWith _ i _ | ARetainWith _ i _ => [i]
    | AGet _ _ | AIter _ | AIntersects _ _ | AIsSubset _ _ => []
    end.
  Lemma pstep_frame o vs vs' out j : pstep kcmp strat o vs = Some (vs', out) -> ~ In j (target o) -> rget j vs' = rget j vs.
  Proof.
    assert (U : forall g i b vs vs' out, p_in_place g i b vs = Some (vs', out) -> j <> i -> @rget tree j vs' = rget j vs).
    { intros g i b w w' o' Hp Hn. unfold p_in_place in Hp. destruct (rtake i w) as [[x w1]|] eqn:Q; [|discriminate]. destruct (rget b w1); [|discriminate].
      destruct (g x r) as [x'| |]; try discriminate. destruct (rput i x' w1) as [w2|] eqn:Q2; [|discriminate]. injection Hp as <- _.
      rewrite (rput_other _ _ _ _ _ Q2 Hn). eapply rtake_other; eauto. }
    assert (U2 : forall g a b i vs vs' out, p_into g a b i vs = Some (vs', out) -> j <> i -> @rget tree j vs' = rget j vs).
    { intros g a b i w w' o' Hp Hn. unfold p_into in Hp. destruct (rget a w) as [x|]; [|discriminate]. destruct (rget b w) as [y|]; [|discriminate].
      destruct (g x y) as [x'| |]; try discriminate. destruct (rput i x' w) as [w2|] eqn:Q2; [|discriminate]. injection Hp as <- _.
      eapply rput_other; eauto. }
    intros H N. destruct o as [o|k v i|i k v|i p|i p i'|f i b|f i b|f i b|f i b|f i b|f a b i|f a b i|f a b i|i k|i|a b|a b]; cbn [pstep target] in *;
      try (eapply U; [exact H|intros ->; apply N; now left]); try (eapply U2; [exact H|intros ->; apply N; now left]); unfold p_answer in H.
    - destruct (vstep o vs) as [w|] eqn:Q; [|discriminate]. injection H as <- _. eapply vstep_frame; eauto.
    - destruct (rput i _ vs) as [w|] eqn:Q; [|discriminate]. injection H as <- _. eapply rput_other; eauto. intros ->. apply N. now left.
    - destruct (rtake i vs) as [[x w1]|] eqn:Q; [|discriminate]. destruct (rt_insert kcmp strat x k v) as [x'| |]; try discriminate.
      destruct (rput i x' w1) as [w2|] eqn:Q2; [|discriminate]. injection H as <- _. assert (Ne : j <> i) by (intros ->; apply N; now left).
      rewrite (rput_other _ _ _ _ _ Q2 Ne). eapply rtake_other; eauto.
    - destruct (rtake i vs) as [[x w1]|] eqn:Q; [|discriminate].
      destruct (rput i _ w1) as [w2|] eqn:Q2; [|discriminate]. injection H as <- _. assert (Ne : j <> i) by (intros ->; apply N; now left).
      rewrite (rput_other _ _ _ _ _ Q2 Ne). eapply rtake_other; eauto.
    - destruct (rget i vs) as [x|]; [|discriminate]. destruct (rt_filter_prefix kcmp x p) as [x'| |]; try discriminate.
      destruct (rput i' x' vs) as [w2|] eqn:Q2; [|discriminate]. injection H as <- _. eapply rput_other; eauto. intros ->. apply N. now left.
    - destruct (rget i vs) as [x|]; [|discriminate]. destruct (rt_get kcmp x k); try discriminate. now injection H as <- _.
    - destruct (rget i vs) as [x|]; [|discriminate]. destruct (rt_iter x); try discriminate. now injection H as <- _.
    - destruct (rget a vs) as [x|]; [|discriminate]. destruct (rget b vs) as [y|]; [|discriminate]. destruct (rt_intersects kcmp strat x y); try discriminate. now injection H as <- _.
    - destruct (rget a vs) as [x|]; [|discriminate]. destruct (rget b vs) as [y|]; [|discriminate]. destruct (rt_is_subset kcmp strat x y); try discriminate. now injection H as <- _.
  Qed.
  Lemma prun_frame (os : list (api K V)) j : (forall o, In o os -> ~ In j (target o)) -> forall vs vs' out, prun kcmp strat os vs = Some (vs', out) -> rget j vs' = rget j vs.
  Proof.
    induction os as [|o os IH]; intros N vs vs' out H; cbn [prun] in H; [now injection H as <- _|].
    destruct (pstep kcmp strat o vs) as [[v1 l1]|] eqn:Q; [|discriminate]. destruct (prun kcmp strat os v1) as [[v2 l2]|] eqn:Q2; [|discriminate].
    injection H as <- _. rewrite (IH (fun o' Ho => N o' (or_intror Ho)) _ _ _ Q2). eapply pstep_frame; eauto. apply N. now left.
  Qed.
  Lemma prun_app (os1 : list (api K V)) : forall os2 vs vs' out, prun kcmp strat (os1 ++ os2) vs = Some (vs', out) ->
    exists v1 l1 l2, prun kcmp strat os1 vs = Some (v1, l1) /\ prun kcmp strat os2 v1 = Some (vs', l2) /\ out = l1 ++ l2.
  Proof.
    induction os1 as [|o os1 IH]; intros os2 vs vs' out H; cbn [app prun] in *; [exists vs, [], out; auto|].
    destruct (pstep kcmp strat o vs) as [[v1 l1]|]; [|discriminate]. destruct (prun kcmp strat (os1 ++ os2) v1) as [[v2 l2]|] eqn:Q; [|discriminate].
    injection H as <- <-. destruct (IH _ _ _ _ Q) as (v3 & l3 & l4 & -> & Q4 & ->). exists v3, (l1 ++ l3), l4. split; auto. split; auto. now rewrite app_assoc.
  Qed.
  Theorem C69_snapshot_isolated (n : nat) (os1 os2 : list (api K V)) vs out (j : nat) :
    prun kcmp strat (os1 ++ os2) (repeat None n) = Some (vs, out) -> (forall o, In o os2 -> ~ In j (target o)) ->
    exists F0, forall F, F0 <= F -> exists st1 l1 st2 l2,
      arun kcmp strat arc F os1 (hinit n) = Some (st1, l1) /\ arun kcmp strat arc F os2 st1 = Some (st2, l2) /\
      forall t, holds_tree st1 j t <-> holds_tree st2 j t.
  Proof.
    intros H N. destruct (prun_app _ _ _ _ _ H) as (v1 & l1 & l2 & H1 & H2 & _).
    destruct (arun_good kcmp strat arc _ _ _ _ H1) as (F1 & G1). destruct (arun_good kcmp strat arc _ _ _ _ H2) as (F2 & G2).
    exists (Nat.max F1 F2). intros F Hf. destruct (G1 F _ ltac:(lia) (init_good n)) as (st1 & Q1 & I1). destruct (G2 F _ ltac:(lia) I1) as (st2 & Q2 & I2).
    exists st1, l1, st2, l2. split; auto. split; auto. intros t. rewrite (good_holds _ _ _ _ I1), (good_holds _ _ _ _ I2).
    now rewrite (prun_frame os2 j N _ _ _ H2).
  Qed.

  (** memory: after any program every live vector is reachable from a register or is the shared empty one; once all
      registers are empty nothing else is left *)
  Lemma good_live (st : state K V) vs : good st vs -> forall a, h_cell (fst st) a <> None ->
    a = 0 \/ exists i m, rget i (snd st) = Some m /\ HeapSpec.reach (fst st) m a.
  Proof.
    intros (I & D & _) a Ha.
    destruct (h_cell (fst st) a) as [[rc ns]|] eqn:Qa; [|congruence].
    destruct (live_reach _ _ I a rc ns Qa) as (m & [<-|Hm] & R).
    - left. inversion R as [? ? Hk|? b rb nb m b' Hk Hb Hm R']; subst; [cbn in Hk; congruence|]. exfalso.
      cbn in Hk. injection Hk as <-. inversion D; subst. match goal with H : dens _ _ _ |- _ => inversion H; subst end.
      match goal with H : h_cell _ 0 = Some (_, []) |- _ => rewrite Hb in H; injection H as -> -> end. easy.
    - right. apply in_flat_map in Hm as (o & Hy & Ho). destruct o as [y|]; [|easy]. destruct Ho as [<-|[]]. apply In_nth_error in Hy as (i & Hi). exists i, y.
      split; auto. unfold rget. now rewrite Hi.
  Qed.
  Theorem C69_no_leak (n : nat) (os : list (api K V)) vs out :
    prun kcmp strat os (repeat None n) = Some (vs, out) ->
    exists F0, forall F, F0 <= F -> exists st, arun kcmp strat arc F os (hinit n) = Some (st, out) /\
      (forall a, h_cell (fst st) a <> None -> a = 0 \/ exists i m, rget i (snd st) = Some m /\ HeapSpec.reach (fst st) m a) /\
      ((forall i, rget i vs = None) -> forall a, a <> 0 -> h_cell (fst st) a = None).
  Proof.
    intros H. destruct (arun_good kcmp strat arc os _ _ _ H) as (F0 & H0). exists F0. intros F Hf.
    destruct (H0 F _ Hf (init_good n)) as (st & -> & G). exists st. split; auto. pose proof (good_live st vs G) as Lv. split; auto.
    intros E a Na. destruct (h_cell (fst st) a) as [c|] eqn:Qa; auto. exfalso.
    destruct (Lv a) as [->|(i & m & Hm & _)]; [congruence|congruence|].
    destruct G as (_ & _ & R). pose proof (rel_nth _ _ _ i R) as Q. specialize (E i). unfold rget in *.
    destruct (nth_error (snd st) i) as [[y|]|]; try discriminate. destruct (nth_error vs i) as [[t|]|]; easy.
  Qed.
End C69.

Section C70.
  Context {K V : Type} {kcmp : K -> K -> comparison} (L : OrdLaws kcmp) (E : OrdEq kcmp) (strat : nat -> nat -> bool) (arc : bool).
  Notation tree := (rtree K V).
  Notation mapping := (@mapping K V).

  (** tree t stands for the mapping M *)
  Definition means (t : tree) (M : mapping) : Prop := forall k v, has t k v <-> M k v.
  Definition oagree (o : option tree) (m : option mapping) : Prop :=
    match o, m with Some t, Some M => Canon kcmp t /\ means t M | None, None => True | _, _ => False end.
  Definition agree (vs : regs tree) (ms : regs mapping) : Prop := Forall2 oagree vs ms.

  Lemma agree_nth vs ms i : agree vs ms ->
    match nth_error vs i, nth_error ms i with Some o, Some m => oagree o m | None, None => True | _, _ => False end.
  Proof. intros R. revert i. induction R; intros [|i]; simpl; auto. apply IHR. Qed.
  Lemma agree_upd vs ms i o m : agree vs ms -> oagree o m -> agree (upd_nth i o vs) (upd_nth i m ms).
  Proof.
    intros R O. revert i. induction R as [|x y l l' A R IH]; intros [|i]; cbn; try (constructor; auto; constructor; fail).
    constructor; auto. apply (IH i).
  Qed.
  Lemma agree_get vs ms i : agree vs ms ->
    match rget i vs, rget i ms with Some t, Some M => Canon kcmp t /\ means t M | None, None => True | _, _ => False end.
  Proof.
    intros A. pose proof (agree_nth _ _ i A) as N. unfold rget. destruct (nth_error vs i) as [[t|]|], (nth_error ms i) as [[M|]|]; easy.
  Qed.
  Lemma agree_take vs ms i : agree vs ms ->
    match rtake i vs, rtake i ms with Some (t, v1), Some (M, m1) => Canon kcmp t /\ means t M /\ agree v1 m1 | None, None => True | _, _ => False end.
  Proof.
    intros A. pose proof (agree_get _ _ i A) as N. unfold rtake. destruct (rget i vs) as [t|], (rget i ms) as [M|]; try easy.
    split; [easy|]. split; [easy|]. apply agree_upd; auto. exact Logic.I.
  Qed.
  Lemma agree_put vs ms j t (M : mapping) : agree vs ms -> Canon kcmp t -> means t M ->
    match rput j t vs, rput j M ms with Some v1, Some m1 => agree v1 m1 | None, None => True | _, _ => False end.
  Proof.
    intros A C H. pose proof (agree_nth _ _ j A) as N. unfold rput. destruct (nth_error vs j) as [[u|]|], (nth_error ms j) as [[M'|]|]; try easy.
    apply agree_upd; auto. split; auto.
  Qed.

  (** one step on trees and on mappings *)
  Definition same (must : bool) (r : option (regs tree * list (obs K V))) (m : option (regs mapping * answers (K := K) (V := V))) : Prop :=
    match r, m with
    | Some (vs, out), Some (ms, A) => A out /\ agree vs ms
    | None, None => True
    | None, Some _ => must = false
    | Some _, None => False
    end.
  Lemma same_put b vs ms j t (M : mapping) : agree vs ms -> Canon kcmp t -> means t M ->
    same b (match rput j t vs with Some s2 => Some (s2, []) | None => None end) (m_put j M ms).
  Proof.
    intros A C H. pose proof (agree_put vs ms j t M A C H) as P. unfold m_put, same. destruct (rput j t vs), (rput j M ms); try easy.
  Qed.
  Lemma same_upd b vs ms i c act (f : mapping -> mapping -> mapping) : agree vs ms ->
    (forall x y M N, Canon kcmp x -> Canon kcmp y -> means x M -> means y N -> exists t, act x y = Ok t /\ Canon kcmp t /\ means t (f M N)) ->
    same b (p_in_place act i c vs) (m_upd i c f ms).
  Proof.
    intros A H. unfold p_in_place, m_upd. pose proof (agree_take vs ms i A) as T.
    destruct (rtake i vs) as [[x v1]|], (rtake i ms) as [[M m1]|]; try easy. destruct T as (Cx & Mx & A1).
    pose proof (agree_get v1 m1 c A1) as T. destruct (rget c v1) as [y|], (rget c m1) as [N|]; try easy. destruct T as (Cy & My).
    destruct (H x y M N Cx Cy Mx My) as (t & -> & Ct & Mt). now apply same_put.
  Qed.
  Lemma same_new b vs ms a c j act (f : mapping -> mapping -> mapping) : agree vs ms ->
    (forall x y M N, Canon kcmp x -> Canon kcmp y -> means x M -> means y N -> exists t, act x y = Ok t /\ Canon kcmp t /\ means t (f M N)) ->
    same b (p_into act a c j vs) (m_new a c j f ms).
  Proof.
    intros A H. unfold p_into, m_new. pose proof (agree_get vs ms a A) as T.
    destruct (rget a vs) as [x|], (rget a ms) as [M|]; try easy. destruct T as (Cx & Mx).
    pose proof (agree_get vs ms c A) as T. destruct (rget c vs) as [y|], (rget c ms) as [N|]; try easy. destruct T as (Cy & My).
    destruct (H x y M N Cx Cy Mx My) as (t & -> & Ct & Mt). now apply same_put.
  Qed.
  Lemma same_ask vs ms a c act (P : mapping -> mapping -> Prop) : agree vs ms ->
    (forall x y M N, Canon kcmp x -> Canon kcmp y -> means x M -> means y N -> exists r, act x y = Ok r /\ (r = true <-> P M N)) ->
    same true (match rget a vs, rget c vs with Some x, Some y => p_answer GotBool vs (act x y) | _, _ => None end) (m_ask a c P ms).
  Proof.
    intros A H. unfold m_ask. pose proof (agree_get vs ms a A) as T.
    destruct (rget a vs) as [x|], (rget a ms) as [M|]; try easy. destruct T as (Cx & Mx).
    pose proof (agree_get vs ms c A) as T. destruct (rget c vs) as [y|], (rget c ms) as [N|]; try easy. destruct T as (Cy & My).
    destruct (H x y M N Cx Cy Mx My) as (r & -> & Hr). cbn [p_answer same]. split; eauto.
  Qed.

  Lemma means_holds t M k o : means t M -> (holds t k o <-> bound M k o).
  Proof. intros H. destruct o as [v|]; cbn; [apply H|]. split; intros N v Hv; apply (N v), H, Hv. Qed.
  Lemma means_combine g (x y t : tree) (M N : mapping) : PropRadix.pointwise g x y t -> means x M -> means y N -> means t (m_combine g M N).
  Proof.
    intros P Mx My k v. rewrite (P k (Some v) : has t k v <-> _). unfold m_combine. split; intros (a & b & Ha & Hb & Q); exists a, b.
    - rewrite <- (means_holds x M), <- (means_holds y N); auto.
    - rewrite (means_holds x M), (means_holds y N); auto.
  Qed.
  Lemma combine_ext (g g' : option V -> option V -> option V) (M N : mapping) : (forall x y, g x y = g' x y) -> forall k v, m_combine g M N k v <-> m_combine g' M N k v.
  Proof. intros H k v. split; intros (a & b & Ha & Hb & Q); exists a, b; [rewrite <- H|rewrite H]; auto. Qed.
  Lemma from_combines op (x y : tree) (P : tree -> Prop) M : combines (kcmp := kcmp) op x y P -> Canon kcmp x -> Canon kcmp y -> (forall t, P t -> means t M) ->
    exists t, op x y = Ok t /\ Canon kcmp t /\ means t M.
  Proof. intros (t & Q & _ & C & H) Cx Cy HP. exists t. auto. Qed.
  Lemma means_ext t (M N : mapping) : (forall k v, M k v <-> N k v) -> means t M -> means t N.
  Proof. intros H Q k v. now rewrite (Q k v). Qed.
  Lemma means_covered f (y : tree) N k : means y N -> (covered f y k <-> covers f N k).
  Proof. intros H. split; intros (k1 & k2 & w & -> & Hw & Q); exists k1, k2, w; split; auto; split; auto; now apply H. Qed.

  Lemma step_same o vs ms : public kcmp o -> agree vs ms -> same (negb (reads_path o)) (pstep kcmp strat o vs) (mstep kcmp o ms).
  Proof.
    intros P A. assert (CW : forall t : tree, Canon kcmp t -> WO kcmp t) by (intros; now apply canon_WO).
    destruct o as [o|k v j|i k v|i p|i p j|f i b|f i b|f i b|f i b|f i b|f a b j|f a b j|f a b j|i k|i|a b|a b]; cbn [pstep mstep].
    - (* base *) destruct o as [j|p v src j|w t j|t j|i j|i|i j|i path|i path c j|i path p|i path v|i path pos src|i path pos j]; cbn [public] in P; try easy; cbn [vstep m_base].
      + apply same_put; auto; [apply empty_canon|]. intros k v. unfold m_empty. split; [|easy]. intros H. inversion H; subst; easy.
      + now apply same_put.
      + now apply same_put.
      + pose proof (agree_get vs ms i A) as T. destruct (rget i vs) as [t|], (rget i ms) as [M|]; try easy. now apply same_put.
      + pose proof (agree_take vs ms i A) as T. destruct (rtake i vs) as [[t v1]|], (rtake i ms) as [[M m1]|]; try easy.
      + pose proof (agree_take vs ms i A) as T. destruct (rtake i vs) as [[t v1]|], (rtake i ms) as [[M m1]|]; try easy. destruct T as (? & ? & ?). now apply same_put.
      + pose proof (agree_get vs ms i A) as T. destruct (rget i vs) as [t|], (rget i ms) as [M|]; try easy. destruct (t_sub path t); cbn [same reads_path negb]; [now split|reflexivity].
    - (* single *) apply same_put; auto; [apply node_canon|]. intros k' v'. unfold m_single, rt_single. split.
      + intros H. inversion H; subst; try easy; auto.
      + intros [-> ->]. constructor.
    - (* insert *) pose proof (agree_take vs ms i A) as T. destruct (rtake i vs) as [[x v1]|], (rtake i ms) as [[M m1]|]; try easy. destruct T as (Cx & Mx & A1).
      destruct (C45_insert L E strat x k v (CW _ Cx)) as (t & -> & _ & C & H). apply same_put; auto. intros k' v'. rewrite H. unfold m_insert. now rewrite (Mx k' v').
    - (* prepend *) pose proof (agree_take vs ms i A) as T. destruct (rtake i vs) as [[x v1]|], (rtake i ms) as [[M m1]|]; try easy. destruct T as (Cx & Mx & A1).
      destruct (C54_prepend E x p (CW _ Cx)) as (_ & C & H). apply same_put; auto. intros k' v'. rewrite H. unfold m_prepend.
      split; intros (s & -> & Hs); exists s; split; auto; now apply Mx.
    - (* filter *) pose proof (agree_get vs ms i A) as T. destruct (rget i vs) as [x|], (rget i ms) as [M|]; try easy. destruct T as (Cx & Mx).
      destruct (C54_filter_prefix L E x p (CW _ Cx)) as (t & -> & _ & C & H). apply same_put; auto. intros k' v'. rewrite H. unfold m_filter. now rewrite (Mx k' v').
    - apply same_upd; auto. intros x y M N Cx Cy Mx My. eapply from_combines; [apply (C48_outer_combine_with L E strat f x y); auto|auto|auto|].
      intros t H. eapply means_ext; [|eapply means_combine; eauto]. apply combine_ext. intros [u|] [w|]; cbn; auto. unfold kept, keeps. now destruct (f u w).
    - apply same_upd; auto. intros x y M N Cx Cy Mx My. eapply from_combines; [apply (C49_inner_combine_with L E strat f x y); auto|auto|auto|].
      intros t H. eapply means_ext; [|eapply means_combine; eauto]. apply combine_ext. intros [u|] [w|]; cbn; auto. unfold kept, keeps. now destruct (f u w).
    - apply same_upd; auto. intros x y M N Cx Cy Mx My. eapply from_combines; [apply (C50_left_combine_with L E strat f x y); auto|auto|auto|].
      intros t H. eapply means_ext; [|eapply means_combine; eauto]. apply combine_ext. intros [u|] [w|]; cbn; auto. unfold kept, keeps. now destruct (f u w).
    - apply same_upd; auto. intros x y M N Cx Cy Mx My. eapply from_combines; [apply (C52_remove_prefix_with L E strat f x y); auto|auto|auto|].
      intros t H k v. cbv beta in H. rewrite (H k v). unfold m_remove. now rewrite (Mx k v), (means_covered f y N k My).
    - apply same_upd; auto. intros x y M N Cx Cy Mx My. eapply from_combines; [apply (C53_retain_prefix_with L E strat f x y); auto|auto|auto|].
      intros t H k v. cbv beta in H. rewrite (H k v). unfold m_retain. now rewrite (Mx k v), (means_covered f y N k My).
    - apply same_new; auto. intros x y M N Cx Cy Mx My. eapply from_combines; [apply (C48_outer_combine L E strat f x y); auto|auto|auto|].
      intros t H. eapply means_ext; [|eapply means_combine; eauto]. apply combine_ext. now intros [u|] [w|].
    - apply same_new; auto. intros x y M N Cx Cy Mx My. eapply from_combines; [apply (C49_inner_combine L E strat f x y); auto|auto|auto|].
      intros t H. eapply means_ext; [|eapply means_combine; eauto]. apply combine_ext. now intros [u|] [w|].
    - apply same_new; auto. intros x y M N Cx Cy Mx My. eapply from_combines; [apply (C51_left_combine_partial L E strat f x y); auto|auto|auto|].
      intros t H. eapply means_ext; [|eapply means_combine; eauto]. apply combine_ext. now intros [u|] [w|].
    - (* get *) pose proof (agree_get vs ms i A) as T. destruct (rget i vs) as [x|], (rget i ms) as [M|]; try easy. destruct T as (Cx & Mx).
      destruct (C44_get L E x k (CW _ Cx)) as (o & -> & H). cbn [p_answer same]. split; auto. exists o. split; auto. now apply (means_holds x M).
    - (* iter *) pose proof (agree_get vs ms i A) as T. destruct (rget i vs) as [x|], (rget i ms) as [M|]; try easy. destruct T as (Cx & Mx).
      destruct (C56_iter E x (CW _ Cx)) as (l & -> & _ & S & H). cbn [p_answer same]. split; auto. exists l. split; auto. split.
      + clear - S. unfold sorted in S. induction l as [|a l IH]; constructor; inversion S; subst; auto. now apply (proj1 (Forall_map fst (fun y => lex kcmp (fst a) y = Lt) l)).
      + intros k v. rewrite H. apply Mx.
    - apply same_ask; auto. intros x y M N Cx Cy Mx My. destruct (C58_intersects L E strat x y (CW _ Cx) (CW _ Cy)) as (r & Q & H). exists r. split; auto. rewrite H.
      split; intros (k & v & w & Hv & Hw); exists k, v, w; split; (now apply Mx) || now apply My.
    - apply same_ask; auto. intros x y M N Cx Cy Mx My. destruct (C57_is_subset L E strat x y Cx (CW _ Cy)) as (r & Q & H). exists r. split; auto. rewrite H.
      split; intros G k v Hv; apply Mx in Hv; apply G in Hv as (w & Hw); exists w; now apply My.
  Qed.
  Lemma run_same os : Forall (public kcmp) os -> forall vs ms, agree vs ms ->
    same (negb (existsb reads_path os)) (prun kcmp strat os vs) (mrun kcmp os ms).
  Proof.
    induction 1 as [|o os Po _ IH]; intros vs ms A; cbn [prun mrun existsb].
    - cbn [same]. split; auto. reflexivity.
    - pose proof (step_same o vs ms Po A) as S. destruct (pstep kcmp strat o vs) as [[v1 l1]|], (mstep kcmp o ms) as [[m1 A1]|]; cbn [same] in S; try easy.
      + destruct S as [H1 G1]. specialize (IH v1 m1 G1). destruct (prun kcmp strat os v1) as [[v2 l2]|], (mrun kcmp os m1) as [[m2 A2]|]; cbn [same] in *; try easy.
        * destruct IH. split; eauto.
        * destruct (reads_path o); cbn; auto.
      + destruct (mrun kcmp os m1) as [[m2 A2]|]; cbn [same]; auto. destruct (reads_path o); [auto|discriminate].
  Qed.
  Lemma agree_init n : agree (repeat None n) (repeat None n).
  Proof. induction n; constructor; auto. exact Logic.I. Qed.

  (** register i of the heap machine stands for the mapping in register i *)
  Definition registers_mean (st : state K V) (ms : regs mapping) : Prop :=
    forall i, (forall M, rget i ms = Some M -> exists t, holds_tree st i t /\ means t M) /\
              (forall t, holds_tree st i t -> exists M, rget i ms = Some M /\ means t M).
  Lemma good_mean st vs ms : good st vs -> agree vs ms -> registers_mean st ms.
  Proof.
    intros G A i. pose proof (agree_get vs ms i A) as T. split.
    - intros M Q. rewrite Q in T. destruct (rget i vs) as [t|] eqn:Qv; [|easy]. exists t. split; [now apply (good_holds st vs)|easy].
    - intros t Ht. apply (good_holds st vs) in Ht; auto. rewrite Ht in T. destruct (rget i ms) as [M|]; [|easy]. exists M. now split.
  Qed.

  (** ** C70: a program of public calls computes on mappings. If its registers are used meaningfully (every register read is
      full, every register written is empty, [mrun] is defined) it never panics, gives only answers that are right for the
      mappings, and ends with every register standing for its mapping - for trees that share nodes arbitrarily. *)
  Theorem C70_programs_compute_mappings (n : nat) (os : list (api K V)) ms (A : answers) :
    Forall (public kcmp) os -> existsb reads_path os = false -> mrun kcmp os (repeat None n) = Some (ms, A) ->
    exists F0 out, forall F, F0 <= F -> exists st, arun kcmp strat arc F os (hinit n) = Some (st, out) /\ A out /\ registers_mean st ms.
  Proof.
    intros P T H. pose proof (run_same os P _ _ (agree_init n)) as S. rewrite H, T in S.
    destruct (prun kcmp strat os (repeat None n)) as [[vs out]|] eqn:Q; cbn [same] in S; [|easy]. destruct S as [Ha Hg].
    destruct (arun_good kcmp strat arc os _ _ _ Q) as (F0 & H0). exists F0, out. intros F Hf.
    destruct (H0 F _ Hf (init_good n)) as (st & -> & G). exists st. split; auto. split; auto. eapply good_mean; eauto.
  Qed.
  (** the same for programs that also read single nodes along a path (which materialises lazy nodes), if these nodes exist *)
  Theorem C70_programs_with_reads (n : nat) (os : list (api K V)) vs out :
    Forall (public kcmp) os -> prun kcmp strat os (repeat None n) = Some (vs, out) ->
    exists ms A, mrun kcmp os (repeat None n) = Some (ms, A) /\ A out /\
      exists F0, forall F, F0 <= F -> exists st, arun kcmp strat arc F os (hinit n) = Some (st, out) /\ registers_mean st ms.
  Proof.
    intros P Q. pose proof (run_same os P _ _ (agree_init n)) as S. rewrite Q in S.
    destruct (mrun kcmp os (repeat None n)) as [[ms A]|] eqn:H; cbn [same] in S; [|easy]. destruct S as [Ha Hg]. exists ms, A. split; auto. split; auto.
    destruct (arun_good kcmp strat arc os _ _ _ Q) as (F0 & H0). exists F0. intros F Hf.
    destruct (H0 F _ Hf (init_good n)) as (st & -> & G). exists st. split; auto. eapply good_mean; eauto.
  Qed.
End C70.

(** ** Concrete cases that meet the hypotheses *)
Notation N0 := Nat.compare.
Definition lin : nat -> nat -> bool := fun _ _ => false.
(** build {[1;2]: 10, [1;3]: 20}, take a snapshot, change one of the two, combine them, load an archived tree, ask *)
Definition prog : list (api nat nat) :=
  [ABase (OEmpty 0); AInsert 0 [1; 2] 10; AInsert 0 [1; 3] 20; ABase (OClone 0 1); AInsert 1 [1; 2; 5] 30;
   AOuterWith (fun a b => (a + b, true)) 1 0; AGet 0 [1; 2]; AGet 1 [1; 2];
   ABase (OArchive (Node [] None [Node [1] (Some 7) [Node [2] (Some 8) []]; Node [4] (Some 9) []]) 2);
   AInner (fun a b => Some (a * b)) 1 2 3; ALeft (fun v w => match w with None => Some v | Some _ => None end) 1 2 4; AIter 1; AIter 3; AIter 4;
   ARemoveWith (fun v => v =? 8) 1 2; AIter 1; AFilter 0 [1; 3] 5; AIsSubset 5 0; AIntersects 1 5; AIsSubset 0 1].
Definition prog_out : list (obs nat nat) :=
  [GotValue (Some 10); GotValue (Some 20); GotPairs [([1; 2], 20); ([1; 2; 5], 30); ([1; 3], 40)];
   GotPairs [([1; 2], 160)]; GotPairs [([1; 2; 5], 30); ([1; 3], 40)]; GotPairs [([1; 3], 40)]; GotBool true; GotBool true; GotBool false].
(** C69: it runs on plain trees and, with the same answers, on both kinds of shared trees *)
Example prog_plain : match prun N0 lin prog (repeat None 6) with Some (_, out) => out = prog_out | None => False end.
Proof. now vm_compute. Qed.
Example prog_arc : match arun N0 lin true 30 prog (hinit 6) with Some (_, out) => out = prog_out | None => False end.
Proof. now vm_compute. Qed.
Example prog_lazy : match arun N0 lin false 30 prog (hinit 6) with Some (_, out) => out = prog_out | None => False end.
Proof. now vm_compute. Qed.
(** after the clone the two trees share their children; in-place combination then works on nodes with two owners *)
Example prog_shares : exists h n m s, arun N0 lin true 30 (firstn 4 prog) (hinit 6) = Some ((h, Some n :: Some m :: s), []) /\ n_kids n = n_kids m /\
  exists a ns, n_kids n = inr a /\ h_cell h a = Some (2, ns) /\ length ns = 2.
Proof. do 4 eexists. split; [now vm_compute|]. split; [reflexivity|]. do 2 eexists. split; [reflexivity|]. now vm_compute. Qed.
(** C69_snapshot_isolated: register 0 is not written after the clone *)
Example prog_snapshot : forall o, In o (skipn 4 prog) -> ~ In 0 (target o).
Proof. intros o Ho. cbn in Ho. intuition subst; cbn in *; intuition discriminate. Qed.
(** C69_no_leak: all registers emptied *)
Example prog_dropped : match prun N0 lin (prog ++ map (fun i => ABase (ODrop i)) [0; 1; 2; 3; 4; 5]) (repeat None 6) with
  | Some (vs, _) => forall i, rget i vs = None | None => False end.
Proof. vm_compute. intros [|[|[|[|[|[|[|i]]]]]]]; reflexivity. Qed.
Example prog_dropped_heap : match arun N0 lin true 30 (prog ++ map (fun i => ABase (ODrop i)) [0; 1; 2; 3; 4; 5]) (hinit 6) with
  | Some (st, _) => h_cell (fst st) 0 = Some (1, []) /\ forall a, In a (seq 1 60) -> h_cell (fst st) a = None | None => False end.
Proof. vm_compute. split; auto. intros a Ha. repeat (destruct Ha as [<-|Ha]; [reflexivity|]). destruct Ha. Qed.
(** C70: it consists of public calls, and its registers are used meaningfully *)
Example arch_canon : Canon N0 (Node [] None [Node [1] (Some 7) [Node [2] (Some 8) []]; Node [4] (Some 9) []]).
Proof.
  apply (C46_reachable_canonical nat_ord nat_ord_eq lin). eapply r_from_iter with (l := [([1], 7); ([1; 2], 8); ([4], 9)]). reflexivity.
Qed.
Example prog_public : Forall (public N0) prog /\ existsb reads_path prog = false.
Proof.
  split; [|reflexivity]. unfold prog. repeat first [apply Forall_nil | apply Forall_cons; [first [exact Logic.I | exact arch_canon | now intros v]|]].
Qed.
Example prog_mapping : mrun N0 prog (repeat None 6) <> None.
Proof. now vm_compute. Qed.
(** a program that also reads nodes of an archived tree *)
Definition prog_reads : list (api nat nat) :=
  [ABase (OArchive (Node [] None [Node [1] (Some 7) [Node [2] (Some 8) []]; Node [4] (Some 9) []]) 0); ABase (OTouch 0 [0]); ABase (OClone 0 1);
   ABase (OTouch 1 [0; 0]); AInsert 1 [1; 2] 80; AIter 0; AIter 1].
Example prog_reads_plain : Forall (public N0) prog_reads /\ match prun N0 lin prog_reads (repeat None 2) with
  | Some (_, out) => out = [GotPairs [([1], 7); ([1; 2], 8); ([4], 9)]; GotPairs [([1], 7); ([1; 2], 80); ([4], 9)]] | None => False end.
Proof.
  split; [|now vm_compute]. unfold prog_reads. repeat first [apply Forall_nil | apply Forall_cons; [first [exact Logic.I | exact arch_canon]|]].
Qed.

Print Assumptions C69_operations_on_shared_trees.
Print Assumptions C69_snapshot_isolated.
Print Assumptions C69_no_leak.
Print Assumptions C70_programs_compute_mappings.
Print Assumptions C70_programs_with_reads.

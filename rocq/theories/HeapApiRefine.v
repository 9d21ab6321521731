(** Programs over the public interface run the same on the heap as on plain trees (HeapApi.v). *)
From Coq Require Import Permutation.
From Verif Require Export HeapApi HeapOpsPure.

Section ApiRefine.
  Context {K V : Type} (kcmp : K -> K -> comparison) (strat : nat -> nat -> bool) (arc : bool).
  Notation tree := (rtree K V).
  Notation node := (node K V).
  Notation heap := (heap K V).
  Implicit Types (h : heap) (vs : regs tree) (s : regs node).

  (** enough depth for the trees in the registers *)
  Definition depth vs : nat := S (list_sum (map (fun o => match o with Some t => S (t_size t) | None => 0 end) vs)).
  Lemma sum_nth (g : option tree -> nat) vs i o : nth_error vs i = Some o -> g o <= list_sum (map g vs).
  Proof.
    revert i. induction vs as [|x vs IH]; intros [|i] H; try discriminate; cbn [map list_sum fold_right nth_error] in *.
    - injection H as ->. lia.
    - specialize (IH _ H). unfold list_sum in IH. lia.
  Qed.
  Lemma sum_upd_nth (g : option tree -> nat) vs i o o' : nth_error vs i = Some o ->
    list_sum (map g (upd_nth i o' vs)) + g o = list_sum (map g vs) + g o'.
  Proof.
    revert i. induction vs as [|x vs IH]; intros [|i] H; try discriminate; cbn [nth_error] in *.
    - injection H as ->. unfold upd_nth, list_sum. simpl. lia.
    - specialize (IH _ H). unfold upd_nth, list_sum in *. simpl in *. lia.
  Qed.
  Lemma depth_get vs i t : rget i vs = Some t -> S (t_size t) < depth vs.
  Proof.
    unfold rget, depth. destruct (nth_error vs i) as [[x|]|] eqn:Q; try discriminate. intros [= ->].
    pose proof (sum_nth (fun o => match o with Some t => S (t_size t) | None => 0 end) vs i _ Q) as E. cbv beta iota in E. lia.
  Qed.
  Lemma depth_take vs i t (v1 : regs tree) : rtake i vs = Some (t, v1) -> S (t_size t) + depth v1 = depth vs.
  Proof.
    unfold rtake. destruct (rget i vs) as [x|] eqn:Q; [|discriminate]. intros [= -> <-]. unfold rget, depth in *.
    destruct (nth_error vs i) as [[y|]|] eqn:Qi; try discriminate. injection Q as ->.
    pose proof (sum_upd_nth (fun o => match o with Some t => S (t_size t) | None => 0 end) vs i _ None Qi) as E. cbv beta iota in E. lia.
  Qed.

  Lemma rtake_get i vs t (v1 : regs tree) : rtake i vs = Some (t, v1) -> rget i vs = Some t.
  Proof. unfold rtake. destruct (rget i vs); [|discriminate]. now intros [= -> _]. Qed.
  Lemma rtake_get2 i b vs t u (v1 : regs tree) : rtake i vs = Some (t, v1) -> rget b v1 = Some u -> rget b vs = Some u.
  Proof.
    intros Q H. destruct (Nat.eq_dec b i) as [->|N]; [|now rewrite <- (rtake_other i b t vs v1 Q N)].
    unfold rtake in Q. destruct (rget i vs) as [y|] eqn:Qi; [|discriminate]. injection Q as -> <-. unfold rget in H, Qi.
    destruct (nth_error vs i) as [[z|]|] eqn:Qz; try discriminate. rewrite (nth_upd_same vs i _ _ Qz) in H. discriminate.
  Qed.
  Lemma good_St h s vs : good (h, s) vs -> St h (static :: nodes_of s).
  Proof. intros (_ & D & _). split; auto. now left. Qed.
  Lemma put_good h s vs j (r : option (heap * node)) t vs' :
    yield1 h (static :: nodes_of s) r t -> den h static (Node [] None []) -> rel h s vs -> rput j t vs = Some vs' ->
    exists st', into_reg r s j = Some (st', []) /\ good st' vs'.
  Proof.
    intros (h1 & n & -> & I & D & Fr & M) Ds R H. pose proof (frame_pres _ _ _ Fr) as P.
    assert (R1 : rel h1 s vs) by (eapply rel_pres; [|exact R]; eapply pres_incl; [|exact P]; intros y Hy; now right).
    destruct (rput_rel h1 s vs j n t vs' R1 D H) as (s2 & Q2 & R2 & P2). unfold into_reg. rewrite Q2. eexists. split; [reflexivity|].
    split; [|split; auto]; cbn [fst snd].
    - eapply inv_perm; [|exact I]. rewrite P2. apply perm_swap.
    - apply P; auto. now left.
  Qed.
  (** an in-place operation on register i, with the contents of register b *)
  Definition fits F vs (i : nat) : Prop := forall t, rget i vs = Some t -> 2 * S (S (t_size t)) <= F.
  Lemma in_place_good act pact i b st vs vs' out F : good st vs -> fits F vs i -> fits F vs b ->
    (forall k, recok (pact k) (act F) F) ->
    p_in_place (fun x y => pact (S (t_size x + t_size y)) x y) i b vs = Some (vs', out) ->
    exists st', in_place (act F) i b st = Some (st', out) /\ good st' vs'.
  Proof.
    destruct st as [h s]. intros (I & Ds & R) Hf Hf2 Hr H. unfold p_in_place in H. unfold in_place. cbn [fst snd] in *.
    destruct (rtake i vs) as [[x v1]|] eqn:Q; [|discriminate]. destruct (rget b v1) as [y|] eqn:Qb; [|discriminate].
    destruct (pact (S (t_size x + t_size y)) x y) as [x'| |] eqn:Qa; try discriminate.
    destruct (rput i x' v1) as [v2|] eqn:Qp; [|discriminate]. injection H as <- <-.
    pose proof (Hf _ (rtake_get _ _ _ _ Q)) as E1. pose proof (Hf2 _ (rtake_get2 _ _ _ _ _ _ Q Qb)) as E2.
    destruct (rtake_rel h s vs i x v1 R Q) as (n & s1 & -> & D & R1 & P1).
    destruct (rget_rel h s1 v1 b y R1 Qb) as (m & -> & Dm & Im).
    assert (Y : yield1 h (static :: nodes_of s1) (act F h n m) x').
    { eapply Hr; eauto.
      - eapply inv_perm; [|exact I]. rewrite P1. apply perm_swap.
      - split; auto. now left.
      - right. left. now right.
      - lia. }
    destruct (put_good h s1 v1 i _ x' v2 Y Ds R1 Qp) as (st' & Qs & G). unfold into_reg in Qs.
    destruct (act F h n m) as [[h1 n1]|]; [|discriminate]. destruct (rput i n1 s1) as [s2|]; [|discriminate]. eauto.
  Qed.
  Lemma pure_into_good act pact a b j st vs vs' out F : good st vs -> fits F vs a -> fits F vs b ->
    (forall k, precok (pact k) (act F) F) ->
    p_into (fun x y => pact (S (t_size x + t_size y)) x y) a b j vs = Some (vs', out) ->
    exists st', pure_into (act F) a b j st = Some (st', out) /\ good st' vs'.
  Proof.
    destruct st as [h s]. intros (I & Ds & R) Hf Hf2 Hr H. unfold p_into in H. unfold pure_into. cbn [fst snd] in *.
    destruct (rget a vs) as [x|] eqn:Q; [|discriminate]. destruct (rget b vs) as [y|] eqn:Qb; [|discriminate].
    destruct (pact (S (t_size x + t_size y)) x y) as [x'| |] eqn:Qa; try discriminate.
    destruct (rput j x' vs) as [v2|] eqn:Qp; [|discriminate]. injection H as <- <-.
    pose proof (Hf _ Q) as E1. pose proof (Hf2 _ Qb) as E2.
    destruct (rget_rel h s vs a x R Q) as (n & -> & D & In1).
    destruct (rget_rel h s vs b y R Qb) as (m & -> & Dm & Im).
    eapply put_good; eauto. eapply Hr; eauto.
    - split; auto. now left.
    - right. left. now right.
    - right. left. now right.
    - lia.
  Qed.
  Lemma insert_yield F k v h C n x x' : Inv h (n :: C) -> St h C -> den h n x -> S (t_size x) < F -> rt_insert kcmp strat x k v = Ok x' ->
    yield1 h C (h_insert kcmp strat arc F k v h n) x'.
  Proof.
    intros I S D Hf H. unfold h_insert.
    destruct (n_new_ok arc k (Some v) [] [] h (n :: C)) as (h1 & tmp & -> & I1 & D1 & X & M1); auto.
    { eapply St_incl; [|exact S]. intros y Hy. now right. }
    { constructor. }
    pose proof (frame_ext h h1 C X) as F1.
    assert (Y : yield1 h1 (tmp :: C) (h_outer kcmp strat arc (fun _ b => (b, true)) F h1 n tmp) x').
    { eapply (outer_refines kcmp strat arc _ F); [| | | |exact D1| |exact H].
      - eapply inv_perm; [|exact I1]. apply perm_swap.
      - eapply St_incl; [|eapply St_frame; eauto]. intros y Hy. now right.
      - now apply (den_ext _ _ X).
      - right. left. now left.
      - cbn. lia. }
    destruct Y as (h2 & n1 & -> & I2 & D2 & F2 & M2).
    destruct (drop_frame h2 [tmp] (n1 :: C)) as (h3 & -> & I3 & F3 & M3); [eapply inv_perm; [apply perm_swap|exact I2]|].
    exists h3, n1. split; auto. split; auto. split; [apply (frame_pres _ _ _ F3); auto; now left|]. split.
    - eapply frame_trans; [exact F1|]. eapply frame_trans; [eapply frame_incl; [|exact F2]|eapply frame_incl; [|exact F3]]; intros y Hy; now right.
    - eapply mono_trans; [exact M1|]. eapply mono_trans; eauto.
  Qed.

  (** the registers an operation names *)
  Definition anames (o : api K V) : list nat :=
    match o with
    | ABase o => names o
    | ASingle _ _ j => [j]
    | AInsert i _ _ | APrepend i _ | AGet i _ | AIter i => [i]
    | AFilter i _ j => [i; j]
    | AOuterWith _ i b | AInnerWith _ i b | ALeftWith _ i b | ARemoveWith _ i b | ARetainWith _ i b | AIntersects i b | AIsSubset i b => [i; b]
    | AOuter _ a b j | AInner _ a b j | ALeft _ a b j => [a; b; j]
    end.
  Lemma astep_fits o vs vs' out : pstep kcmp strat o vs = Some (vs', out) ->
    forall F st, (forall i, In i (anames o) -> fits F vs i) -> good st vs -> exists st', astep kcmp strat arc F o st = Some (st', out) /\ good st' vs'.
  Proof.
    intros H F [h s] Hf G. pose proof (good_St _ _ _ G) as S. pose proof G as (I & Ds & R). cbn [fst snd] in I, Ds, R.
    destruct o as [o|k v j|i k v|i p|i p j|f i b|f i b|f i b|f i b|f i b|f a b j|f a b j|f a b j|i k|i|a b|a b]; cbn [pstep astep anames] in *.
    - (* base *) destruct (vstep o vs) as [v1|] eqn:Q; [|discriminate]. injection H as <- <-.
      destruct (step_good arc o (h, s) vs v1 G Q) as (st' & -> & G'). eauto.
    - (* single *) destruct (rput j (rt_single k v) vs) as [v1|] eqn:Q; [|discriminate]. injection H as <- <-.
      eapply put_good; [|exact Ds|exact R|exact Q].
      destruct (n_new_ok arc k (Some v) [] [] h (static :: nodes_of s)) as (h1 & n & -> & I1 & D1 & X & M1); auto; [constructor|].
      exists h1, n. split; auto. split; auto. split; auto. split; auto. now apply frame_ext.
    - (* insert *) destruct (rtake i vs) as [[x v1]|] eqn:Q; [|discriminate]. destruct (rt_insert kcmp strat x k v) as [x'| |] eqn:Qa; try discriminate.
      destruct (rput i x' v1) as [v2|] eqn:Qp; [|discriminate]. injection H as <- <-. pose proof (Hf i ltac:(now left) _ (rtake_get _ _ _ _ Q)) as E1.
      destruct (rtake_rel h s vs i x v1 R Q) as (n & s1 & -> & D & R1 & P1). eapply put_good; [|exact Ds|exact R1|exact Qp].
      eapply insert_yield; [| |exact D| |exact Qa].
      + eapply inv_perm; [|exact I]. rewrite P1. apply perm_swap.
      + split; auto. now left.
      + lia.
    - (* prepend *) destruct (rtake i vs) as [[x v1]|] eqn:Q; [|discriminate].
      destruct (rput i (rt_prepend x p) v1) as [v2|] eqn:Qp; [|discriminate]. injection H as <- <-.
      destruct (rtake_rel h s vs i x v1 R Q) as (n & s1 & -> & D & R1 & P1). eapply put_good; [|exact Ds|exact R1|exact Qp].
      destruct (h_prepend_ok h (static :: nodes_of s1) n x p) as (n1 & -> & I1 & D1); auto.
      { eapply inv_perm; [|exact I]. rewrite P1. apply perm_swap. }
      now apply same_yield.
    - (* filter *) destruct (rget i vs) as [x|] eqn:Q; [|discriminate]. destruct (rt_filter_prefix kcmp x p) as [x'| |] eqn:Qa; try discriminate.
      destruct (rput j x' vs) as [v2|] eqn:Qp; [|discriminate]. injection H as <- <-. pose proof (Hf i ltac:(now left) _ Q) as E1.
      destruct (rget_rel h s vs i x R Q) as (n & -> & D & In1). eapply put_good; [|exact Ds|exact R|exact Qp].
      eapply filter_refines; eauto; [right; left; now right|lia].
    - eapply (in_place_good (h_outer kcmp strat arc f)); eauto; try (apply Hf; now left); try (apply Hf; right; now left). apply outer_refines.
    - eapply (in_place_good (h_inner kcmp strat arc f)); eauto; try (apply Hf; now left); try (apply Hf; right; now left). apply inner_refines.
    - eapply (in_place_good (h_left kcmp strat arc f)); eauto; try (apply Hf; now left); try (apply Hf; right; now left). apply left_refines.
    - eapply (in_place_good (h_remove kcmp strat arc f)); eauto; try (apply Hf; now left); try (apply Hf; right; now left). apply remove_refines.
    - eapply (in_place_good (h_retain kcmp strat arc f)); eauto; try (apply Hf; now left); try (apply Hf; right; now left). apply retain_refines.
    - eapply (pure_into_good (h_outer_pure kcmp strat arc f)); eauto; try (apply Hf; now left); try (apply Hf; right; now left). apply outer_pure_refines.
    - eapply (pure_into_good (h_inner_pure kcmp strat arc f)); eauto; try (apply Hf; now left); try (apply Hf; right; now left). apply inner_pure_refines.
    - eapply (pure_into_good (h_left_pure kcmp strat arc f)); eauto; try (apply Hf; now left); try (apply Hf; right; now left). apply left_pure_refines.
    - (* get *) destruct (rget i vs) as [x|] eqn:Q; [|discriminate]. unfold p_answer in H. destruct (rt_get kcmp x k) as [r| |] eqn:Qa; try discriminate.
      injection H as <- <-. pose proof (Hf i ltac:(now left) _ Q) as E1. destruct (rget_rel h s vs i x R Q) as (n & -> & D & In1).
      erewrite (get_refines kcmp F h (static :: nodes_of s)); [|right; left; now right|exact D|lia|exact Qa]. eauto.
    - (* iter *) destruct (rget i vs) as [x|] eqn:Q; [|discriminate]. unfold p_answer in H. destruct (rt_iter x) as [r| |] eqn:Qa; try discriminate.
      injection H as <- <-. pose proof (Hf i ltac:(now left) _ Q) as E1. destruct (rget_rel h s vs i x R Q) as (n & -> & D & In1).
      erewrite iter_refines; [|exact D|lia|exact Qa]. cbn [answer]. eauto.
    - (* intersects *) destruct (rget a vs) as [x|] eqn:Q; [|discriminate]. destruct (rget b vs) as [y|] eqn:Qb; [|discriminate].
      unfold p_answer in H. destruct (rt_intersects kcmp strat x y) as [r| |] eqn:Qa; try discriminate. injection H as <- <-.
      pose proof (Hf a ltac:(now left) _ Q) as E1. pose proof (Hf b ltac:(right; now left) _ Qb) as E2.
      destruct (rget_rel h s vs a x R Q) as (n & -> & D & In1). destruct (rget_rel h s vs b y R Qb) as (m & -> & Dm & Im).
      rewrite (den_prefix _ _ _ D), (den_prefix _ _ _ Dm).
      erewrite intersects_refines; [|exact D|exact Dm|lia|exact Qa]. cbn [answer]. eauto.
    - (* is_subset *) destruct (rget a vs) as [x|] eqn:Q; [|discriminate]. destruct (rget b vs) as [y|] eqn:Qb; [|discriminate].
      unfold p_answer in H. destruct (rt_is_subset kcmp strat x y) as [r| |] eqn:Qa; try discriminate. injection H as <- <-.
      pose proof (Hf a ltac:(now left) _ Q) as E1. pose proof (Hf b ltac:(right; now left) _ Qb) as E2.
      destruct (rget_rel h s vs a x R Q) as (n & -> & D & In1). destruct (rget_rel h s vs b y R Qb) as (m & -> & Dm & Im).
      rewrite (den_prefix _ _ _ D), (den_prefix _ _ _ Dm).
      erewrite is_subset_refines; [|exact D|exact Dm|lia|exact Qa]. cbn [answer]. eauto.
  Qed.
  Lemma astep_good o vs vs' out : pstep kcmp strat o vs = Some (vs', out) ->
    forall F st, 2 * depth vs <= F -> good st vs -> exists st', astep kcmp strat arc F o st = Some (st', out) /\ good st' vs'.
  Proof.
    intros H F st Hf G. eapply astep_fits; eauto. intros i _ t Q. pose proof (depth_get _ _ _ Q). lia.
  Qed.
  Lemma arun_good os : forall vs vs' out, prun kcmp strat os vs = Some (vs', out) ->
    exists F0, forall F st, F0 <= F -> good st vs -> exists st', arun kcmp strat arc F os st = Some (st', out) /\ good st' vs'.
  Proof.
    induction os as [|o os IH]; intros vs vs' out H; cbn [prun arun] in *.
    - injection H as <- <-. exists 0. eauto.
    - destruct (pstep kcmp strat o vs) as [[v1 l1]|] eqn:Q; [|discriminate]. destruct (prun kcmp strat os v1) as [[v2 l2]|] eqn:Q2; [|discriminate].
      injection H as <- <-. destruct (IH v1 v2 l2 Q2) as (F0 & H0). exists (Nat.max F0 (2 * depth vs)). intros F st Hf G.
      destruct (astep_good o vs v1 l1 Q F st ltac:(lia) G) as (st1 & -> & G1).
      destruct (H0 F st1 ltac:(lia) G1) as (st2 & -> & G2). eauto.
  Qed.
End ApiRefine.

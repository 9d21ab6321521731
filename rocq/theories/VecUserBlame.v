(** The operations of VecUserModel.v panic only when user code does. *)
From Verif Require Export VecUserOps.

Section Blame.
  Context {E C S A B R : Type} (cmp : clos E (C * C) comparison) (kA : A -> C) (kB : B -> C) (O : mop (S * E) A B) (vr : S * E -> list R).
  Context (FA : A -> option R -> Prop) (FB : B -> option R -> Prop) (FC : A -> B -> option R -> Prop) (OB : obeys O vr FA FB FC).
  Context (still : forall m e e', mo_a O (m, e) = mo_a O (m, e') /\ mo_b O (m, e) = mo_b O (m, e') /\ vr (m, e) = vr (m, e')).
  Context (U : E -> Prop).
  Record guilt : Prop := {
    gu_a : forall s n s', n <= length (mo_a O s) -> mo_from_a O s n = Panic s' -> U (snd s');
    gu_b : forall s n s', n <= length (mo_b O s) -> mo_from_b O s n = Panic s' -> U (snd s');
    gu_c : forall s s' x a y b, mo_a O s = x :: a -> mo_b O s = y :: b -> mo_coll O s = Panic s' -> U (snd s')
  }.
  Context (G : guilt).
  Definition bend (_ s' : S * E) : Prop := threw cmp (snd s') \/ U (snd s').
  Lemma blame_steps : gsteps (wcmp cmp kA kB) O (fun _ _ => True) bend (fun _ => True).
  Proof using OB still G.
    pose proof (wrun_steps cmp kA kB O vr FA FB FC OB still) as ST.
    constructor; auto.
    - intros s n Hn. pose proof (gs_a _ _ _ _ _ ST s n Hn) as H. pose proof (gu_a G s n) as H2.
      destruct (mo_from_a O s n) as [s'|s'|s'|]; cbn [gstepok] in *; auto; [now split|]. right. now apply H2.
    - intros s n Hn. pose proof (gs_b _ _ _ _ _ ST s n Hn) as H. pose proof (gu_b G s n) as H2.
      destruct (mo_from_b O s n) as [s'|s'|s'|]; cbn [gstepok] in *; auto; [now split|]. right. now apply H2.
    - intros s x a y b Ha Hb Hc. pose proof (gs_c _ _ _ _ _ ST s x a y b Ha Hb Hc) as H. pose proof (gu_c G s) as H2.
      destruct (mo_coll O s) as [s'|s'|s'|]; cbn [gstepok] in *; auto; [now split|]. right. now apply (H2 s' x a y b).
    - intros s x y s' q Hx Hy Hc. destruct (gs_cmp _ _ _ _ _ ST s x y s' q Hx Hy Hc) as (H1 & H2 & _). split; [exact H1|]. split; [exact H2|].
      destruct q; [exact I|]. left. unfold wcmp in Hc. destruct (cmp (snd s) (kA x, kB y)) as [e' [q|]] eqn:Q; [discriminate|].
      injection Hc as <-. now exists (snd s), (kA x, kB y).
  Qed.
  Lemma merge_blames strat s (f : S * E -> list R) :
    blames (fun e => threw cmp e \/ U e) (to_done (fun s => (f s, snd s)) (gmerge (wcmp cmp kA kB) O strat s)).
  Proof using OB still G.
    pose proof (gmerge_ok _ _ _ _ _ blame_steps strat s) as H. destruct (gmerge _ _ _ _); cbn [to_done blames gstepok] in *; auto.
  Qed.
End Blame.

Section BlameSets.
  Context {T E : Type} (clone : clos E T T).
  Lemma cpush_threw : forall l r e r' e', cpush_all clone l r e = (r', e', false) -> threw clone e'.
  Proof using.
    induction l as [|x l IH]; intros r e r' e'; cbn [cpush_all]; [discriminate|]. destruct (clone e x) as [e1 [y|]] eqn:Q; [apply IH|].
    intros [= <- <-]. now exists e, x.
  Qed.
  Lemma cextend_threw : forall n bd b e bd' b' e', cbd_extend clone n bd b e = (bd', b', e', false) -> threw clone e'.
  Proof using.
    induction n as [|n IH]; intros bd b e bd' b' e'; cbn [cbd_extend]; [discriminate|]. destruct b as [|y b]; [discriminate|].
    destruct (clone e y) as [e1 [x|]] eqn:Q; [apply IH|]. intros [= <- <- <-]. now exists e, y.
  Qed.
  Lemma si_take_le {X} (l : list X) n : n <= length l -> si_take_front l n <> None.
  Proof using. unfold si_take_front. intros H. apply Nat.leb_le in H. now rewrite H. Qed.
  Lemma si_drop_le {X} (l : list X) n : n <= length l -> si_drop_front l n <> None.
  Proof using. unfold si_drop_front. intros H. apply Nat.leb_le in H. now rewrite H. Qed.
  Lemma cvs_a_threw s n t s' : n <= length (vs_a (fst s)) -> cvs_adv_a clone s n t = Panic s' -> threw clone (snd s').
  Proof using.
    destruct s as [m e]. cbn [fst]. intros Hn. unfold cvs_adv_a. destruct t.
    - destruct (si_take_front (vs_a m) n) as [[h r]|] eqn:Q; [|destruct (si_take_le _ _ Hn Q)].
      destruct (cpush_all _ _ _ _) as [[r' e'] [|]] eqn:P; [discriminate|]. intros [= <-]. exact (cpush_threw _ _ _ _ _ P).
    - destruct (si_drop_front (vs_a m) n) eqn:Q; [discriminate|]. destruct (si_drop_le _ _ Hn Q).
  Qed.
  Lemma cvs_b_threw s n t s' : n <= length (vs_b (fst s)) -> cvs_adv_b clone s n t = Panic s' -> threw clone (snd s').
  Proof using.
    destruct s as [m e]. cbn [fst]. intros Hn. unfold cvs_adv_b. destruct t.
    - destruct (si_take_front (vs_b m) n) as [[h r]|] eqn:Q; [|destruct (si_take_le _ _ Hn Q)].
      destruct (cpush_all _ _ _ _) as [[r' e'] [|]] eqn:P; [discriminate|]. intros [= <-]. exact (cpush_threw _ _ _ _ _ P).
    - destruct (si_drop_front (vs_b m) n) eqn:Q; [discriminate|]. destruct (si_drop_le _ _ Hn Q).
  Qed.
  Lemma cvs_a_b s n t s' : cvs_adv_a clone s n t = Cont s' -> vs_b (fst s') = vs_b (fst s).
  Proof using.
    destruct s as [m e]. unfold cvs_adv_a. destruct t.
    - destruct (si_take_front (vs_a m) n) as [[h r]|]; [|discriminate]. destruct (cpush_all _ _ _ _) as [[r' e'] [|]]; [|discriminate].
      now intros [= <-].
    - destruct (si_drop_front (vs_a m) n); [|discriminate]. now intros [= <-].
  Qed.
  Lemma vs_guilt ta tb tc : guilt (set_op (cvs_msm clone) ta tb tc) (threw clone).
  Proof using.
    constructor; cbn [set_op cvs_msm mo_a mo_b mo_from_a mo_from_b mo_coll ms_a ms_b adv_a adv_b].
    - intros s n s'. apply cvs_a_threw.
    - intros s n s'. apply cvs_b_threw.
    - intros s s' x a y b Ha Hb. destruct (cvs_adv_a clone s 1 tc) as [s1|s1|s1|] eqn:Q; cbn [obind]; try discriminate.
      + apply cvs_b_threw. apply cvs_a_b in Q. rewrite Q, Hb. cbn [length]. lia.
      + intros [= <-]. apply (cvs_a_threw s 1 tc); [rewrite Ha; cbn [length]; lia|exact Q].
  Qed.
  Lemma ipr_guilt ta tb tc : guilt (set_op (cipr_msm clone) ta tb tc) (fun e => tb = true /\ threw clone e).
  Proof using.
    constructor; cbn [set_op cipr_msm mo_a mo_b mo_from_a mo_from_b mo_coll ms_a ms_b adv_a adv_b].
    - intros s n s' _. discriminate.
    - intros [m e] n s' _. unfold cipr_adv_b. destruct tb; [|discriminate]. destruct (cbd_extend _ _ _ _ _) as [[[bd b'] e'] [|]] eqn:Q; [discriminate|].
      intros [= <-]. split; [reflexivity|]. exact (cextend_threw _ _ _ _ _ _ _ Q).
    - intros s s' x a y b Ha Hb. discriminate.
  Qed.
End BlameSets.

Section BlameMaps.
  Context {K E : Type} (clone : clos E K K).
  Lemma ccall_threw {X Y St} (f : clos E X (option Y)) e x k (emit : K -> Y -> St) (skip thrown : St) s' :
    ccall clone f e x k emit skip thrown = Panic s' -> threw f (snd s') \/ threw clone (snd s').
  Proof using.
    unfold ccall. destruct (f e x) as [e1 [[y|]|]] eqn:Q; [|discriminate|].
    - destruct (clone e1 k) as [e2 [k'|]] eqn:P; [discriminate|]. intros [= <-]. right. now exists e1, k.
    - intros [= <-]. left. now exists e, x.
  Qed.
  Lemma call_threw {X Y St} (f : clos E X Y) e x (ret : Y -> St) (thrown : St) s' : call f e x ret thrown = Panic s' -> threw f (snd s').
  Proof using. unfold call. destruct (f e x) as [e1 [y|]] eqn:Q; [discriminate|]. intros [= <-]. now exists e, x. Qed.
  Lemma for_n_threw {St} (U : E -> Prop) (body : St * E -> out (St * E)) : (forall s s', body s = Panic s' -> U (snd s')) ->
    forall n s s', for_n n body s = Panic s' -> U (snd s').
  Proof using.
    intros H. induction n as [|n IH]; intros s s'; cbn [for_n]; [discriminate|]. destruct (body s) as [s1|s1|s1|] eqn:Q; cbn [obind]; try discriminate.
    - apply IH.
    - intros [= <-]. now apply (H s).
  Qed.
  Section VS.
    Context {V W R : Type}.
    Notation st := (vstate (K * V) (K * W) (K * R) * E)%type.
    Lemma cjv_a_threw {X} (f : clos E X (option R)) (arg : K -> V -> X) (s s' : st) : cjv_a clone f arg s = Panic s' -> threw f (snd s') \/ threw clone (snd s').
    Proof using. destruct s as [m e]. unfold cjv_a. destruct (vs_a m) as [|[k a] a']; [discriminate|apply ccall_threw]. Qed.
    Lemma cjv_b_threw {X} (f : clos E X (option R)) (arg : K -> W -> X) (s s' : st) : cjv_b clone f arg s = Panic s' -> threw f (snd s') \/ threw clone (snd s').
    Proof using. destruct s as [m e]. unfold cjv_b. destruct (vs_b m) as [|[k a] a']; [discriminate|apply ccall_threw]. Qed.
    Lemma cjv_coll_threw {X} (f : clos E X (option R)) (arg : K -> V -> W -> X) (s s' : st) : cjv_coll clone f arg s = Panic s' -> threw f (snd s') \/ threw clone (snd s').
    Proof using. destruct s as [m e]. unfold cjv_coll. destruct (vs_a m) as [|[k a] a']; [discriminate|]. destruct (vs_b m) as [|[k2 b] b']; [discriminate|apply ccall_threw]. Qed.
    Lemma jv_drop_a_threw (U : E -> Prop) (s : st) n s' : n <= length (vs_a (fst s)) -> jv_drop_a s n = Panic s' -> U (snd s').
    Proof using. unfold jv_drop_a. intros Hn. destruct (si_drop_front _ _) eqn:Q; [discriminate|]. destruct (si_drop_le _ _ Hn Q). Qed.
    Lemma jv_drop_b_threw (U : E -> Prop) (s : st) n s' : n <= length (vs_b (fst s)) -> jv_drop_b s n = Panic s' -> U (snd s').
    Proof using. unfold jv_drop_b. intros Hn. destruct (si_drop_front _ _) eqn:Q; [discriminate|]. destruct (si_drop_le _ _ Hn Q). Qed.
    Lemma vs_outer_guilt f : guilt (COuterJoinOp_v (V := V) (W := W) (R := R) clone unasked f) (fun e => threw f e \/ threw clone e).
    Proof using.
      constructor; cbn [COuterJoinOp_v mo_a mo_b mo_from_a mo_from_b mo_coll].
      - intros s n s' _. apply (for_n_threw (fun e => threw f e \/ threw clone e)). apply cjv_a_threw.
      - intros s n s' _. apply (for_n_threw (fun e => threw f e \/ threw clone e)). apply cjv_b_threw.
      - intros s s' x a y b _ _. apply cjv_coll_threw.
    Qed.
    Lemma vs_left_guilt f : guilt (CLeftJoinOp_v (V := V) (W := W) (R := R) clone unasked f) (fun e => threw f e \/ threw clone e).
    Proof using.
      constructor; cbn [CLeftJoinOp_v mo_a mo_b mo_from_a mo_from_b mo_coll].
      - intros s n s' _. apply (for_n_threw (fun e => threw f e \/ threw clone e)). apply cjv_a_threw.
      - intros s n s'. apply (jv_drop_b_threw (fun e => threw f e \/ threw clone e)).
      - intros s s' x a y b _ _. apply cjv_coll_threw.
    Qed.
    Lemma vs_right_guilt f : guilt (CRightJoinOp_v (V := V) (W := W) (R := R) clone unasked f) (fun e => threw f e \/ threw clone e).
    Proof using.
      constructor; cbn [CRightJoinOp_v mo_a mo_b mo_from_a mo_from_b mo_coll].
      - intros s n s'. apply (jv_drop_a_threw (fun e => threw f e \/ threw clone e)).
      - intros s n s' _. apply (for_n_threw (fun e => threw f e \/ threw clone e)). apply cjv_b_threw.
      - intros s s' x a y b _ _. apply cjv_coll_threw.
    Qed.
    Lemma vs_inner_guilt f : guilt (CInnerJoinOp_v (V := V) (W := W) (R := R) clone unasked f) (fun e => threw f e \/ threw clone e).
    Proof using.
      constructor; cbn [CInnerJoinOp_v mo_a mo_b mo_from_a mo_from_b mo_coll].
      - intros s n s'. apply (jv_drop_a_threw (fun e => threw f e \/ threw clone e)).
      - intros s n s'. apply (jv_drop_b_threw (fun e => threw f e \/ threw clone e)).
      - intros s s' x a y b _ _. apply cjv_coll_threw.
    Qed.
  End VS.
  Section IPR.
    Context {V W : Type}.
    Notation st := (iprstate (K * V) (K * W) * E)%type.
    Lemma ji_a_threw {X} (f : clos E X (option V)) (arg : K -> V -> X) (s s' : st) : ji_a f arg s = Panic s' -> threw f (snd s').
    Proof using. destruct s as [m e]. unfold ji_a. destruct (bd_pop_front _) as [[[k v] bd]|]; [apply call_threw|discriminate]. Qed.
    Lemma cji_b_threw {X} (f : clos E X (option V)) (arg : K -> W -> X) (s s' : st) : cji_b clone f arg s = Panic s' -> threw f (snd s') \/ threw clone (snd s').
    Proof using. destruct s as [m e]. unfold cji_b. destruct (ipr_b m) as [|[k a] a']; [discriminate|apply ccall_threw]. Qed.
    Lemma ji_coll_threw {X} (f : clos E X (option V)) (arg : K -> V -> W -> X) (s s' : st) : ji_coll f arg s = Panic s' -> threw f (snd s').
    Proof using.
      destruct s as [m e]. unfold ji_coll. destruct (bd_pop_front _) as [[[k v] bd]|]; [|discriminate]. destruct (ipr_b m) as [|[k2 w] b']; [discriminate|apply call_threw].
    Qed.
    Lemma ji_drop_b_threw (U : E -> Prop) (s : st) n s' : n <= length (ipr_b (fst s)) -> ji_drop_b s n = Panic s' -> U (snd s').
    Proof using. unfold ji_drop_b. intros Hn. destruct (si_drop_front _ _) eqn:Q; [discriminate|]. destruct (si_drop_le _ _ Hn Q). Qed.
    Lemma ipr_outer_guilt f : guilt (COuterJoinOp_i (V := V) (W := W) clone unasked f) (fun e => threw f e \/ threw clone e).
    Proof using.
      constructor; cbn [COuterJoinOp_i mo_a mo_b mo_from_a mo_from_b mo_coll].
      - intros s n s' _ H. left. eapply (for_n_threw (threw f)); [|exact H]. apply (ji_a_threw f OJLeft).
      - intros s n s' _. apply (for_n_threw (fun e => threw f e \/ threw clone e)). apply cji_b_threw.
      - intros s s' x a y b _ _ H. left. now apply ji_coll_threw in H.
    Qed.
    Lemma ipr_left_guilt (f : clos E (K * V * option W) (option V)) : guilt (LeftJoinOp_i (K := K) (V := V) (W := W) unasked f) (threw f).
    Proof using.
      constructor; cbn [LeftJoinOp_i mo_a mo_b mo_from_a mo_from_b mo_coll].
      - intros s n s' _ H. eapply (for_n_threw (threw f)); [|exact H]. apply (ji_a_threw f (fun k v => (k, v, None))).
      - intros s n s'. apply (ji_drop_b_threw (threw f)).
      - intros s s' x a y b _ _ H. now apply ji_coll_threw in H.
    Qed.
    Lemma ipr_right_guilt f : guilt (CRightJoinOp_i (V := V) (W := W) clone unasked f) (fun e => threw f e \/ threw clone e).
    Proof using.
      constructor; cbn [CRightJoinOp_i mo_a mo_b mo_from_a mo_from_b mo_coll].
      - intros s n s' _. discriminate.
      - intros s n s' _. apply (for_n_threw (fun e => threw f e \/ threw clone e)). apply cji_b_threw.
      - intros s s' x a y b _ _ H. left. now apply ji_coll_threw in H.
    Qed.
    Lemma ipr_inner_guilt (f : clos E (K * V * W) (option V)) : guilt (InnerJoinOp_i (K := K) (V := V) (W := W) unasked f) (threw f).
    Proof using.
      constructor; cbn [InnerJoinOp_i mo_a mo_b mo_from_a mo_from_b mo_coll].
      - intros s n s' _. discriminate.
      - intros s n s'. apply (ji_drop_b_threw (threw f)).
      - intros s s' x a y b _ _ H. now apply ji_coll_threw in H.
    Qed.
  End IPR.
  Section IP.
    Context {V : Type}.
    Lemma combine_threw (f : clos E (V * V) V) e : threw (combine_clos (K := K) f) e -> threw f e.
    Proof using.
      intros (e0 & [k v|k w|k v w] & H); cbn [combine_clos] in H; try discriminate. destruct (f e0 (v, w)) as [e1 [y|]] eqn:Q; [discriminate|].
      injection H as <-. now exists e0, (v, w).
    Qed.
    Lemma ip_combine_guilt (f : clos E (V * V) V) : guilt (OuterJoinOp_p (K := K) (V := V) (W := V) unasked (combine_clos f)) (threw f).
    Proof using.
      constructor; cbn [OuterJoinOp_p mo_a mo_b mo_from_a mo_from_b mo_coll].
      - intros s n s' _. apply (for_n_threw (threw f)). intros [m e] s1. unfold ojp_a. destruct (bd_pop_front _) as [[[k v] bd]|]; [|discriminate].
        intros H. apply combine_threw. eapply call_threw. exact H.
      - intros s n s' _. apply (for_n_threw (threw f)). intros [m e] s1. unfold ojp_b. destruct (ip_b m) as [|[k v] bd]; [discriminate|].
        intros H. apply combine_threw. eapply call_threw. exact H.
      - intros [m e] s' x a y b _ _. unfold ojp_coll. destruct (bd_pop_front _) as [[[k v] bd]|]; [|discriminate].
        destruct (ip_b m) as [|[k2 w] b']; [discriminate|]. intros H. apply combine_threw. eapply call_threw. exact H.
    Qed.
  End IP.
End BlameMaps.

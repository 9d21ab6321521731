(** Each operation of VecUserModel.v obeys its table of fates. *)
From Verif Require Export VecUserLaw.

(** ** The set operations *)
Section SetOps.
  Context {T E : Type} (clone : clos E T T).
  Notation cloned := (passed (one_clone clone)).
  Lemma cpush_fated : forall l r e r' e' ok, cpush_all clone l r e = (r', e', ok) ->
    exists l1 l2 r1, l = l1 ++ l2 /\ r' = r ++ r1 /\ fated cloned l1 r1 /\ (if ok then l2 = [] else l2 <> []).
  Proof using.
    induction l as [|x l IH]; intros r e r' e' ok; cbn [cpush_all].
    - intros [= <- <- <-]. exists [], [], []. split; [reflexivity|]. split; [now rewrite app_nil_r|]. split; [constructor|reflexivity].
    - destruct (clone e x) as [e1 [y|]] eqn:Q.
      + intros H. apply IH in H as (l1 & l2 & r1 & -> & -> & H1 & H2). exists (x :: l1), l2, (y :: r1).
        split; [reflexivity|]. split; [now rewrite <- app_assoc|]. split; [|exact H2].
        apply (fated_cons cloned x l1 (Some y) r1); [|exact H1]. exists y. split; [now exists e, e1|reflexivity].
      + intros [= <- <- <-]. exists [], (x :: l), []. split; [reflexivity|]. split; [now rewrite app_nil_r|]. split; [constructor|discriminate].
  Qed.
  Lemma cextend_fated : forall b1 b2 bd e bd' b' e' ok, cbd_extend clone (length b1) bd (b1 ++ b2) e = (bd', b', e', ok) ->
    exists l1 l2 r1, b1 = l1 ++ l2 /\ bd_tgt bd' = bd_tgt bd ++ r1 /\ bd_src bd' = bd_src bd /\ fated cloned l1 r1 /\
      (ok = true -> l2 = [] /\ b' = b2).
  Proof using.
    induction b1 as [|y b1 IH]; intros b2 bd e bd' b' e' ok; cbn [cbd_extend length app].
    - intros [= <- <- <- <-]. exists [], [], []. split; [reflexivity|]. split; [now rewrite app_nil_r|]. split; [reflexivity|].
      split; [constructor|auto].
    - destruct (clone e y) as [e1 [x|]] eqn:Q.
      + intros H. apply IH in H as (l1 & l2 & r1 & -> & H1 & H2 & H3 & H4). exists (y :: l1), l2, (x :: r1).
        split; [reflexivity|]. split; [rewrite H1; cbn [bd_push bd_tgt]; now rewrite <- app_assoc|]. split; [exact H2|]. split; [|exact H4].
        apply (fated_cons cloned y l1 (Some x) r1); [|exact H3]. exists x. split; [now exists e, e1|reflexivity].
      + intros [= <- <- <- <-]. exists [], (y :: b1), []. split; [reflexivity|]. split; [now rewrite app_nil_r|]. split; [reflexivity|].
        split; [constructor|discriminate].
  Qed.

  (** an operation that says for each side alone, and for equal elements, whether the element is taken *)
  Definition set_op {S} (M : msm S T T) (ta tb tc : bool) : mop S T T :=
    MkMop (ms_a M) (ms_b M) (tcmp unasked) (fun m n => adv_a M m n ta) (fun m n => adv_b M m n tb)
      (fun m => obind (adv_a M m 1 tc) (fun m => adv_b M m 1 false)).
  Definition fate (take : bool) (via : T -> T -> Prop) (x : T) (o : option T) : Prop := if take then passed via x o else dropped x o.
  Section Gen.
    Context {S : Type} (M : msm S T T) (vr : S -> list T) (va vb : T -> T -> Prop).
    Context (adva : forall take s a1 a2, ms_a M s = a1 ++ a2 ->
      match adv_a M s (length a1) take with
      | Cont s' => exists r, fated (fate take va) a1 r /\ ms_a M s' = a2 /\ ms_b M s' = ms_b M s /\ vr s' = vr s ++ r
      | Panic s' => exists a3 a4 r, a1 = a3 ++ a4 /\ fated (fate take va) a3 r /\ vr s' = vr s ++ r /\ a4 <> []
      | _ => False
      end).
    Context (advb : forall take s b1 b2, ms_b M s = b1 ++ b2 ->
      match adv_b M s (length b1) take with
      | Cont s' => exists r, fated (fate take vb) b1 r /\ ms_b M s' = b2 /\ ms_a M s' = ms_a M s /\ vr s' = vr s ++ r
      | Panic s' => take = true /\ exists b3 b4 r, b1 = b3 ++ b4 /\ fated (fate take vb) b3 r /\ vr s' = vr s ++ r
      | _ => False
      end).
    Context (gna : forall s n t, going (adv_a M s n t)) (gnb : forall s n t, going (adv_b M s n t)).
    Lemma fated_one (F : T -> option T -> Prop) x r : fated F [x] r -> exists o, F x o /\ r = olist o.
    Proof using. intros H. inversion H as [|? ? o r' H1 H2]; subst. inversion H2; subst. exists o. now rewrite app_nil_r. Qed.
    Lemma fated_dropped_nil (l r : list T) : fated dropped l r -> r = [].
    Proof using. induction 1 as [|x l o r H _ ->]; [reflexivity|]. now rewrite H. Qed.
    Lemma set_op_obeys ta tb tc : obeys (set_op M ta tb tc) vr (fate ta va) (fate tb vb) (fun x _ => fate tc va x).
    Proof using adva advb gna gnb.
      constructor; cbn [set_op mo_a mo_b mo_from_a mo_from_b mo_coll].
      - intros s a1 a2 H. specialize (adva ta s a1 a2 H). destruct (adv_a M s (length a1) ta); auto.
        destruct adva as (a3 & a4 & r & H1 & H2 & H3 & _). now exists a3, a4, r.
      - intros s b1 b2 H. specialize (advb tb s b1 b2 H). destruct (adv_b M s (length b1) tb); auto. apply advb.
      - intros s x a y b Ha Hb. specialize (adva tc s [x] a Ha). cbn [length] in adva.
        destruct (adv_a M s 1 tc) as [s1|s1|s1|]; cbn [obind]; try contradiction.
        + destruct adva as (r & H1 & H2 & H3 & H4). apply fated_one in H1 as (o & H1 & ->).
          rewrite Hb in H3. specialize (advb false s1 [y] b H3). cbn [length] in advb.
          destruct (adv_b M s1 1 false) as [s2|s2|s2|]; try contradiction; [|now destruct advb].
          destruct advb as (r & G1 & G2 & G3 & G4). cbn [fate] in G1. apply fated_dropped_nil in G1. subst r. rewrite app_nil_r in G4.
          exists o. split; [exact H1|]. rewrite G4, <- H4. split; [congruence|]. now split.
        + destruct adva as (a3 & a4 & r & H1 & H2 & H3 & H4). destruct a3 as [|x3 a3].
          * inversion H2; subst. now rewrite app_nil_r in H3.
          * exfalso. destruct a3, a4; try discriminate H1. congruence.
      - auto.
      - auto.
      - intros s. apply going_bind; [apply gna|]. intros s1. apply gnb.
    Qed.
  End Gen.

  Lemma si_take_app {X} (a1 a2 : list X) : si_take_front (a1 ++ a2) (length a1) = Some (a1, a2).
  Proof using.
    unfold si_take_front. rewrite app_length. replace (length a1 <=? length a1 + length a2) with true by (symmetry; apply Nat.leb_le; lia).
    now rewrite firstn_app_exact, skipn_app_exact.
  Qed.
  Lemma si_drop_app {X} (a1 a2 : list X) : si_drop_front (a1 ++ a2) (length a1) = Some a2.
  Proof using.
    unfold si_drop_front. rewrite app_length. replace (length a1 <=? length a1 + length a2) with true by (symmetry; apply Nat.leb_le; lia).
    now rewrite skipn_app_exact.
  Qed.
  Lemma fated_gone {X R} (l : list X) (r : list R) : exists r0, fated dropped l r0 /\ r = r ++ r0.
  Proof using. exists []. rewrite app_nil_r. split; [apply fated_dropped|reflexivity]. Qed.

  Definition vs_out (s : vstate T T T * E) : list T := vs_r (fst s).
  Lemma vs_obeys ta tb tc : obeys (set_op (cvs_msm clone) ta tb tc) vs_out (fate ta (one_clone clone)) (fate tb (one_clone clone)) (fun x _ => fate tc (one_clone clone) x).
  Proof using.
    apply set_op_obeys; cbn [cvs_msm ms_a ms_b adv_a adv_b].
    - intros take [m e] a1 a2 H. cbn [fst] in H. unfold cvs_adv_a. rewrite H. destruct take.
      + rewrite si_take_app. destruct (cpush_all clone a1 (vs_r m) e) as [[r e'] ok] eqn:Q.
        apply cpush_fated in Q as (l1 & l2 & r1 & -> & -> & H1 & H2). destruct ok.
        * rewrite H2, app_nil_r. exists r1. cbn [fate]. now split.
        * exists l1, l2, r1. cbn [fate]. split; [reflexivity|]. split; [exact H1|]. split; [reflexivity|]. exact H2.
      + rewrite si_drop_app. destruct (fated_gone a1 (vs_r m)) as (r0 & G1 & G2). exists r0. cbn [fate]. now split.
    - intros take [m e] b1 b2 H. cbn [fst] in H. unfold cvs_adv_b. rewrite H. destruct take.
      + rewrite si_take_app. destruct (cpush_all clone b1 (vs_r m) e) as [[r e'] ok] eqn:Q.
        apply cpush_fated in Q as (l1 & l2 & r1 & -> & -> & H1 & H2). destruct ok.
        * rewrite H2, app_nil_r. exists r1. cbn [fate]. now split.
        * split; [reflexivity|]. exists l1, l2, r1. cbn [fate]. now split.
      + rewrite si_drop_app. destruct (fated_gone b1 (vs_r m)) as (r0 & G1 & G2). exists r0. cbn [fate]. now split.
    - intros [m e] n t. unfold cvs_adv_a. destruct t; [|now destruct (si_drop_front _ _)]. destruct (si_take_front _ _) as [[h t]|]; [|exact I].
      destruct (cpush_all _ _ _ _) as [[r e'] ok]. now destruct ok.
    - intros [m e] n t. unfold cvs_adv_b. destruct t; [|now destruct (si_drop_front _ _)]. destruct (si_take_front _ _) as [[h t]|]; [|exact I].
      destruct (cpush_all _ _ _ _) as [[r e'] ok]. now destruct ok.
  Qed.
  Definition ipr_out (s : iprstate T T * E) : list T := bd_tgt (ipr_a (fst s)).
  Lemma ipr_obeys ta tb tc : obeys (set_op (cipr_msm clone) ta tb tc) ipr_out (fate ta eq) (fate tb (one_clone clone)) (fun x _ => fate tc eq x).
  Proof using.
    apply set_op_obeys; cbn [cipr_msm ms_a ms_b adv_a adv_b].
    - intros take [m e] a1 a2 H. cbn [fst] in H. unfold cipr_adv_a, bd_consume, ipr_out. cbn [fst snd]. rewrite H. destruct take; cbn [ipr_a ipr_b bd_tgt bd_src fst fate].
      + rewrite firstn_app_exact, skipn_app_exact. exists a1. split; [apply fated_moved|]. now split.
      + rewrite skipn_app_exact. destruct (fated_gone a1 (bd_tgt (ipr_a m))) as (r0 & G1 & G2). exists r0. now split.
    - intros take [m e] b1 b2 H. cbn [fst] in H. unfold cipr_adv_b, ipr_out. rewrite H. destruct take.
      + destruct (cbd_extend clone (length b1) (ipr_a m) (b1 ++ b2) e) as [[[bd b'] e'] ok] eqn:Q.
        apply cextend_fated in Q as (l1 & l2 & r1 & -> & H1 & H2 & H3 & H4). cbn [fate]. destruct ok; cbn [ipr_a ipr_b fst].
        * destruct (H4 eq_refl) as [-> ->]. rewrite app_nil_r. exists r1. now split.
        * split; [reflexivity|]. exists l1, l2, r1. now split.
      + cbn [fst ipr_a ipr_b fate]. rewrite skipn_app_exact. destruct (fated_gone b1 (bd_tgt (ipr_a m))) as (r0 & G1 & G2). exists r0. now split.
    - intros s n t. exact I.
    - intros [m e] n t. unfold cipr_adv_b. destruct t; [|exact I]. destruct (cbd_extend _ _ _ _ _) as [[[bd b'] e'] ok]. now destruct ok.
  Qed.
End SetOps.

(** ** The joins *)
Section Loops.
  Context {S A B R : Type} (va : S -> list A) (vb : S -> list B) (vr : S -> list R) (F : A -> option R -> Prop).
  Context (body : S -> out S).
  Context (step : forall s x a, va s = x :: a ->
    match body s with
    | Cont s' => exists o, F x o /\ va s' = a /\ vb s' = vb s /\ vr s' = vr s ++ olist o
    | Panic s' => vr s' = vr s
    | _ => False
    end).
  Lemma for_n_fated : forall a1 s a2, va s = a1 ++ a2 ->
    match for_n (length a1) body s with
    | Cont s' => exists r, fated F a1 r /\ va s' = a2 /\ vb s' = vb s /\ vr s' = vr s ++ r
    | Panic s' => exists a3 a4 r, a1 = a3 ++ a4 /\ fated F a3 r /\ vr s' = vr s ++ r
    | _ => False
    end.
  Proof using step.
    induction a1 as [|x a1 IH]; intros s a2 H; cbn [length for_n].
    - exists []. rewrite app_nil_r. split; [constructor|]. now split.
    - specialize (step s x (a1 ++ a2) H). destruct (body s) as [s1|s1|s1|]; cbn [obind]; try contradiction.
      + destruct step as (o & H1 & H2 & H3 & H4). specialize (IH s1 a2 H2). destruct (for_n _ _ _) as [s2|s2|s2|]; try contradiction.
        * destruct IH as (r & G1 & G2 & G3 & G4). exists (olist o ++ r). split; [now constructor|]. split; [exact G2|]. split; [congruence|].
          now rewrite G4, H4, app_assoc.
        * destruct IH as (a3 & a4 & r & -> & G2 & G3). exists (x :: a3), a4, (olist o ++ r). split; [reflexivity|]. split; [now constructor|].
          now rewrite G3, H4, app_assoc.
      + exists [], (x :: a1), []. split; [reflexivity|]. split; [constructor|]. now rewrite app_nil_r.
  Qed.
  Lemma for_n_going : (forall s, going (body s)) -> forall n s, going (for_n n body s).
  Proof using. intros H. induction n as [|n IH]; intros s; cbn [for_n]; [exact I|]. apply going_bind; auto. Qed.
End Loops.

Section MapOps.
  Context {K E : Type} (clone : clos E K K).
  Notation cloned := (one_clone clone).
  (** [ccall]: calls the closure and clones the key *)
  Lemma ccall_cases {X Y St} (f : clos E X (option Y)) e x k (emit : K -> Y -> St) (skip thrown : St) :
    match ccall clone f e x k emit skip thrown with
    | Cont (m, _) => exists o, put_under cloned f x k o /\ m = match o with Some (k', y) => emit k' y | None => skip end
    | Panic (m, _) => m = thrown
    | _ => False
    end.
  Proof using.
    unfold ccall. destruct (f e x) as [e1 [[y|]|]] eqn:Q; [|exists None; split; [now exists e, e1, None|reflexivity]|reflexivity].
    destruct (clone e1 k) as [e2 [k'|]] eqn:Q2; [|reflexivity]. exists (Some (k', y)). split; [|reflexivity].
    exists e, e1, (Some y). split; [exact Q|]. exists k'. split; [now exists e1, e2|reflexivity].
  Qed.
  (** [call]: calls the closure; the key is moved *)
  Lemma call_cases {X Y St} (f : clos E X (option Y)) e x (k : K) (ret : option Y -> St) (thrown : St) :
    match call f e x ret thrown with
    | Cont (m, _) => exists o, put_under eq f x k o /\ m = ret (option_map snd o) /\ match o with Some (k', _) => k' = k | None => True end
    | Panic (m, _) => m = thrown
    | _ => False
    end.
  Proof using.
    unfold call. destruct (f e x) as [e1 [[y|]|]] eqn:Q; [| |reflexivity].
    - exists (Some (k, y)). split; [exists e, e1, (Some y); split; [exact Q|now exists k]|now split].
    - exists None. split; [now exists e, e1, None|now split].
  Qed.

  Section VS.
    Context {V W R : Type}.
    Notation st := (vstate (K * V) (K * W) (K * R) * E)%type.
    Definition vj_out (s : st) : list (K * R) := vs_r (fst s).
    Definition vj_a (s : st) := vs_a (fst s). Definition vj_b (s : st) := vs_b (fst s).
    Lemma cjv_a_step {X} (f : clos E X (option R)) (arg : K -> V -> X) s x a : vj_a s = x :: a ->
      match cjv_a clone f arg s with
      | Cont s' => exists o, put_under cloned f (arg (fst x) (snd x)) (fst x) o /\ vj_a s' = a /\ vj_b s' = vj_b s /\ vj_out s' = vj_out s ++ olist o
      | Panic s' => vj_out s' = vj_out s
      | _ => False
      end.
    Proof using.
      destruct s as [m e], x as [k v]. unfold vj_a, cjv_a, vj_b, vj_out. cbn [fst snd]. intros ->.
      pose proof (ccall_cases f e (arg k v) k (cvs_emit (MkVs a (vs_b m) (vs_r m))) (MkVs a (vs_b m) (vs_r m)) (MkVs a (vs_b m) (vs_r m))) as H.
      destruct (ccall _ _ _ _ _ _ _ _) as [[m' e']|s'|[m' e']|]; try contradiction; cbn [fst].
      - destruct H as (o & H1 & ->). exists o. split; [exact H1|]. destruct o as [[k' y]|]; cbn [cvs_emit vs_a vs_b vs_r olist]; [now split|].
        rewrite app_nil_r. now split.
      - now subst m'.
    Qed.
    Lemma cjv_b_step {X} (f : clos E X (option R)) (arg : K -> W -> X) s y b : vj_b s = y :: b ->
      match cjv_b clone f arg s with
      | Cont s' => exists o, put_under cloned f (arg (fst y) (snd y)) (fst y) o /\ vj_b s' = b /\ vj_a s' = vj_a s /\ vj_out s' = vj_out s ++ olist o
      | Panic s' => vj_out s' = vj_out s
      | _ => False
      end.
    Proof using.
      destruct s as [m e], y as [k w]. unfold vj_b, cjv_b, vj_a, vj_out. cbn [fst snd]. intros ->.
      pose proof (ccall_cases f e (arg k w) k (cvs_emit (MkVs (vs_a m) b (vs_r m))) (MkVs (vs_a m) b (vs_r m)) (MkVs (vs_a m) b (vs_r m))) as H.
      destruct (ccall _ _ _ _ _ _ _ _) as [[m' e']|s'|[m' e']|]; try contradiction; cbn [fst].
      - destruct H as (o & H1 & ->). exists o. split; [exact H1|]. destruct o as [[k' y]|]; cbn [cvs_emit vs_a vs_b vs_r olist]; [now split|].
        rewrite app_nil_r. now split.
      - now subst m'.
    Qed.
    Lemma cjv_coll_step {X} (f : clos E X (option R)) (arg : K -> V -> W -> X) s x a y b : vj_a s = x :: a -> vj_b s = y :: b ->
      match cjv_coll clone f arg s with
      | Cont s' => exists o, put_under cloned f (arg (fst x) (snd x) (snd y)) (fst x) o /\ vj_a s' = a /\ vj_b s' = b /\ vj_out s' = vj_out s ++ olist o
      | Panic s' => vj_out s' = vj_out s
      | _ => False
      end.
    Proof using.
      destruct s as [m e], x as [k v], y as [k2 w]. unfold vj_b, cjv_coll, vj_a, vj_out. cbn [fst snd]. intros -> ->.
      pose proof (ccall_cases f e (arg k v w) k (cvs_emit (MkVs a b (vs_r m))) (MkVs a b (vs_r m)) (MkVs a b (vs_r m))) as H.
      destruct (ccall _ _ _ _ _ _ _ _) as [[m' e']|s'|[m' e']|]; try contradiction; cbn [fst].
      - destruct H as (o & H1 & ->). exists o. split; [exact H1|]. destruct o as [[k' y]|]; cbn [cvs_emit vs_a vs_b vs_r olist]; [now split|].
        rewrite app_nil_r. now split.
      - now subst m'.
    Qed.
    Lemma jv_drop_a_step (s : st) a1 a2 : vj_a s = a1 ++ a2 ->
      match jv_drop_a s (length a1) with
      | Cont s' => exists r, fated dropped a1 r /\ vj_a s' = a2 /\ vj_b s' = vj_b s /\ vj_out s' = vj_out s ++ r
      | Panic s' => exists a3 a4 r, a1 = a3 ++ a4 /\ fated dropped a3 r /\ vj_out s' = vj_out s ++ r
      | _ => False
      end.
    Proof using.
      unfold vj_a, jv_drop_a. intros ->. rewrite si_drop_app. destruct (fated_gone (R := K * R) a1 (vj_out s)) as (r0 & G1 & G2). exists r0. now split.
    Qed.
    Lemma jv_drop_b_step (s : st) b1 b2 : vj_b s = b1 ++ b2 ->
      match jv_drop_b s (length b1) with
      | Cont s' => exists r, fated dropped b1 r /\ vj_b s' = b2 /\ vj_a s' = vj_a s /\ vj_out s' = vj_out s ++ r
      | Panic s' => exists a3 a4 r, b1 = a3 ++ a4 /\ fated dropped a3 r /\ vj_out s' = vj_out s ++ r
      | _ => False
      end.
    Proof using.
      unfold vj_b, jv_drop_b. intros ->. rewrite si_drop_app. destruct (fated_gone (R := K * R) b1 (vj_out s)) as (r0 & G1 & G2). exists r0. now split.
    Qed.
    Lemma ccall_going {X Y St} (f : clos E X (option Y)) e x k (emit : K -> Y -> St) (skip thrown : St) : going (ccall clone f e x k emit skip thrown).
    Proof using. unfold ccall. destruct (f e x) as [e1 [[y|]|]]; [|exact I|exact I]. now destruct (clone e1 k) as [e2 [k'|]]. Qed.
    Lemma cjv_a_going {X} (f : clos E X (option R)) (arg : K -> V -> X) (s : st) : going (cjv_a clone f arg s).
    Proof using. destruct s as [m e]. unfold cjv_a. destruct (vs_a m) as [|[k a] a']; [exact I|apply ccall_going]. Qed.
    Lemma cjv_b_going {X} (f : clos E X (option R)) (arg : K -> W -> X) (s : st) : going (cjv_b clone f arg s).
    Proof using. destruct s as [m e]. unfold cjv_b. destruct (vs_b m) as [|[k a] a']; [exact I|apply ccall_going]. Qed.
    Lemma cjv_coll_going {X} (f : clos E X (option R)) (arg : K -> V -> W -> X) (s : st) : going (cjv_coll clone f arg s).
    Proof using. destruct s as [m e]. unfold cjv_coll. destruct (vs_a m) as [|[k a] a']; [exact I|]. destruct (vs_b m) as [|[k2 b] b']; [exact I|apply ccall_going]. Qed.
    Lemma jv_drop_a_going (s : st) n : going (jv_drop_a s n).
    Proof using. unfold jv_drop_a. now destruct (si_drop_front _ _). Qed.
    Lemma jv_drop_b_going (s : st) n : going (jv_drop_b s n).
    Proof using. unfold jv_drop_b. now destruct (si_drop_front _ _). Qed.

    Lemma vs_outer_obeys f : obeys (COuterJoinOp_v (V := V) (W := W) (R := R) clone unasked f) vj_out
      (fun x => put_under cloned f (OJLeft (fst x) (snd x)) (fst x)) (fun y => put_under cloned f (OJRight (fst y) (snd y)) (fst y))
      (fun x y => put_under cloned f (OJBoth (fst x) (snd x) (snd y)) (fst x)).
    Proof using.
      constructor; cbn [COuterJoinOp_v mo_a mo_b mo_from_a mo_from_b mo_coll].
      - intros s a1 a2. apply (for_n_fated vj_a vj_b vj_out). intros s' x a. apply cjv_a_step.
      - intros s b1 b2. apply (for_n_fated vj_b vj_a vj_out). intros s' x a. apply cjv_b_step.
      - intros s x a y b. apply cjv_coll_step.
      - intros s n. apply for_n_going. apply cjv_a_going.
      - intros s n. apply for_n_going. apply cjv_b_going.
      - apply cjv_coll_going.
    Qed.
    Lemma vs_left_obeys f : obeys (CLeftJoinOp_v (V := V) (W := W) (R := R) clone unasked f) vj_out
      (fun x => put_under cloned f (fst x, snd x, None) (fst x)) dropped
      (fun x y => put_under cloned f (fst x, snd x, Some (snd y)) (fst x)).
    Proof using.
      constructor; cbn [CLeftJoinOp_v mo_a mo_b mo_from_a mo_from_b mo_coll].
      - intros s a1 a2. apply (for_n_fated vj_a vj_b vj_out). intros s' x a. apply (cjv_a_step f (fun k v => (k, v, None))).
      - intros s b1 b2. apply jv_drop_b_step.
      - intros s x a y b. apply (cjv_coll_step f (fun k v w => (k, v, Some w))).
      - intros s n. apply for_n_going. apply cjv_a_going.
      - apply jv_drop_b_going.
      - apply cjv_coll_going.
    Qed.
    Lemma vs_right_obeys f : obeys (CRightJoinOp_v (V := V) (W := W) (R := R) clone unasked f) vj_out
      dropped (fun y => put_under cloned f (fst y, None, snd y) (fst y))
      (fun x y => put_under cloned f (fst x, Some (snd x), snd y) (fst x)).
    Proof using.
      constructor; cbn [CRightJoinOp_v mo_a mo_b mo_from_a mo_from_b mo_coll].
      - intros s a1 a2. apply jv_drop_a_step.
      - intros s b1 b2. apply (for_n_fated vj_b vj_a vj_out). intros s' x a. apply (cjv_b_step f (fun k w => (k, None, w))).
      - intros s x a y b. apply (cjv_coll_step f (fun k v w => (k, Some v, w))).
      - apply jv_drop_a_going.
      - intros s n. apply for_n_going. apply cjv_b_going.
      - apply cjv_coll_going.
    Qed.
    Lemma vs_inner_obeys f : obeys (CInnerJoinOp_v (V := V) (W := W) (R := R) clone unasked f) vj_out
      dropped dropped (fun x y => put_under cloned f (fst x, snd x, snd y) (fst x)).
    Proof using.
      constructor; cbn [CInnerJoinOp_v mo_a mo_b mo_from_a mo_from_b mo_coll].
      - intros s a1 a2. apply jv_drop_a_step.
      - intros s b1 b2. apply jv_drop_b_step.
      - intros s x a y b. apply (cjv_coll_step f (fun k v w => (k, v, w))).
      - apply jv_drop_a_going.
      - apply jv_drop_b_going.
      - apply cjv_coll_going.
    Qed.
  End VS.

  Section IPR.
    Context {V W : Type}.
    Notation st := (iprstate (K * V) (K * W) * E)%type.
    Definition ij_out (s : st) : list (K * V) := bd_tgt (ipr_a (fst s)).
    Definition ij_a (s : st) := bd_src (ipr_a (fst s)). Definition ij_b (s : st) := ipr_b (fst s).
    (** the lone entry of [self] *)
    Definition ji_a {X} (f : clos E X (option V)) (arg : K -> V -> X) (s : st) : out st :=
      let (m, e) := s in
      match bd_pop_front (ipr_a m) with
      | Some ((k, v), bd) => let m' := MkIpr bd (ipr_b m) in call f e (arg k v) (ipr_emit m' k) m'
      | None => Cont s
      end.
    Lemma ji_a_step {X} (f : clos E X (option V)) (arg : K -> V -> X) s x a : ij_a s = x :: a ->
      match ji_a f arg s with
      | Cont s' => exists o, put_under eq f (arg (fst x) (snd x)) (fst x) o /\ ij_a s' = a /\ ij_b s' = ij_b s /\ ij_out s' = ij_out s ++ olist o
      | Panic s' => ij_out s' = ij_out s
      | _ => False
      end.
    Proof using.
      destruct s as [m e], x as [k v]. unfold ij_a, ji_a, ij_b, ij_out, bd_pop_front. cbn [fst snd]. intros ->.
      pose proof (call_cases f e (arg k v) k (ipr_emit (MkIpr (MkB (bd_tgt (ipr_a m)) a (bd_drop (ipr_a m))) (ipr_b m)) k)
        (MkIpr (MkB (bd_tgt (ipr_a m)) a (bd_drop (ipr_a m))) (ipr_b m))) as H.
      destruct (call _ _ _ _ _) as [[m' e']|s'|[m' e']|]; try contradiction; cbn [fst].
      - destruct H as (o & H1 & -> & H2). exists o. split; [exact H1|].
        destruct o as [[k' y]|]; cbn [option_map snd ipr_emit ipr_a ipr_b bd_src bd_tgt bd_push olist]; [subst k'; now split|].
        rewrite app_nil_r. now split.
      - now subst m'.
    Qed.
    Lemma cji_b_step {X} (f : clos E X (option V)) (arg : K -> W -> X) s y b : ij_b s = y :: b ->
      match cji_b clone f arg s with
      | Cont s' => exists o, put_under cloned f (arg (fst y) (snd y)) (fst y) o /\ ij_b s' = b /\ ij_a s' = ij_a s /\ ij_out s' = ij_out s ++ olist o
      | Panic s' => ij_out s' = ij_out s
      | _ => False
      end.
    Proof using.
      destruct s as [m e], y as [k w]. unfold ij_b, cji_b, ij_a, ij_out. cbn [fst snd]. intros ->.
      pose proof (ccall_cases f e (arg k w) k (cipr_emit (MkIpr (ipr_a m) b)) (MkIpr (ipr_a m) b) (MkIpr (ipr_a m) b)) as H.
      destruct (ccall _ _ _ _ _ _ _ _) as [[m' e']|s'|[m' e']|]; try contradiction; cbn [fst].
      - destruct H as (o & H1 & ->). exists o. split; [exact H1|]. destruct o as [[k' y]|]; cbn [cipr_emit ipr_a ipr_b bd_push bd_tgt bd_src olist]; [now split|].
        rewrite app_nil_r. now split.
      - now subst m'.
    Qed.
    Lemma ji_coll_step {X} (f : clos E X (option V)) (arg : K -> V -> W -> X) s x a y b : ij_a s = x :: a -> ij_b s = y :: b ->
      match ji_coll f arg s with
      | Cont s' => exists o, put_under eq f (arg (fst x) (snd x) (snd y)) (fst x) o /\ ij_a s' = a /\ ij_b s' = b /\ ij_out s' = ij_out s ++ olist o
      | Panic s' => ij_out s' = ij_out s
      | _ => False
      end.
    Proof using.
      destruct s as [m e], x as [k v], y as [k2 w]. unfold ij_a, ji_coll, ij_b, ij_out, bd_pop_front. cbn [fst snd]. intros -> ->.
      pose proof (call_cases f e (arg k v w) k (ipr_emit (MkIpr (MkB (bd_tgt (ipr_a m)) a (bd_drop (ipr_a m))) b) k)
        (MkIpr (MkB (bd_tgt (ipr_a m)) a (bd_drop (ipr_a m))) b)) as H.
      destruct (call _ _ _ _ _) as [[m' e']|s'|[m' e']|]; try contradiction; cbn [fst].
      - destruct H as (o & H1 & -> & H2). exists o. split; [exact H1|].
        destruct o as [[k' y]|]; cbn [option_map snd ipr_emit ipr_a ipr_b bd_src bd_tgt bd_push olist]; [subst k'; now split|].
        rewrite app_nil_r. now split.
      - now subst m'.
    Qed.
    Lemma ji_drop_a_step (s : st) a1 a2 : ij_a s = a1 ++ a2 ->
      match ji_drop_a s (length a1) with
      | Cont s' => exists r, fated dropped a1 r /\ ij_a s' = a2 /\ ij_b s' = ij_b s /\ ij_out s' = ij_out s ++ r
      | Panic s' => exists a3 a4 r, a1 = a3 ++ a4 /\ fated dropped a3 r /\ ij_out s' = ij_out s ++ r
      | _ => False
      end.
    Proof using.
      unfold ij_a, ij_b, ij_out, ji_drop_a, bd_consume. intros ->. cbn [fst ipr_a ipr_b bd_src bd_tgt]. rewrite skipn_app_exact.
      destruct (fated_gone (R := K * V) a1 (ij_out s)) as (r0 & G1 & G2). exists r0. now split.
    Qed.
    Lemma ji_drop_b_step (s : st) b1 b2 : ij_b s = b1 ++ b2 ->
      match ji_drop_b s (length b1) with
      | Cont s' => exists r, fated dropped b1 r /\ ij_b s' = b2 /\ ij_a s' = ij_a s /\ ij_out s' = ij_out s ++ r
      | Panic s' => exists a3 a4 r, b1 = a3 ++ a4 /\ fated dropped a3 r /\ ij_out s' = ij_out s ++ r
      | _ => False
      end.
    Proof using.
      unfold ij_b, ji_drop_b. intros ->. rewrite si_drop_app. destruct (fated_gone (R := K * V) b1 (ij_out s)) as (r0 & G1 & G2). exists r0. now split.
    Qed.
    Lemma call_going {X Y St} (f : clos E X Y) e x (ret : Y -> St) (thrown : St) : going (call f e x ret thrown).
    Proof using. unfold call. now destruct (f e x) as [e1 [y|]]. Qed.
    Lemma ji_a_going {X} (f : clos E X (option V)) (arg : K -> V -> X) (s : st) : going (ji_a f arg s).
    Proof using. destruct s as [m e]. unfold ji_a. destruct (bd_pop_front _) as [[[k v] bd]|]; [apply call_going|exact I]. Qed.
    Lemma cji_b_going {X} (f : clos E X (option V)) (arg : K -> W -> X) (s : st) : going (cji_b clone f arg s).
    Proof using. destruct s as [m e]. unfold cji_b. destruct (ipr_b m) as [|[k a] a']; [exact I|apply ccall_going]. Qed.
    Lemma ji_coll_going {X} (f : clos E X (option V)) (arg : K -> V -> W -> X) (s : st) : going (ji_coll f arg s).
    Proof using.
      destruct s as [m e]. unfold ji_coll. destruct (bd_pop_front _) as [[[k v] bd]|]; [|exact I]. destruct (ipr_b m) as [|[k2 w] b']; [exact I|apply call_going].
    Qed.
    Lemma ji_drop_b_going (s : st) n : going (ji_drop_b s n).
    Proof using. unfold ji_drop_b. now destruct (si_drop_front _ _). Qed.

    Lemma ipr_outer_obeys f : obeys (COuterJoinOp_i (V := V) (W := W) clone unasked f) ij_out
      (fun x => put_under eq f (OJLeft (fst x) (snd x)) (fst x)) (fun y => put_under cloned f (OJRight (fst y) (snd y)) (fst y))
      (fun x y => put_under eq f (OJBoth (fst x) (snd x) (snd y)) (fst x)).
    Proof using.
      constructor; cbn [COuterJoinOp_i mo_a mo_b mo_from_a mo_from_b mo_coll].
      - intros s a1 a2. apply (for_n_fated ij_a ij_b ij_out). intros s' x a. apply (ji_a_step f OJLeft).
      - intros s b1 b2. apply (for_n_fated ij_b ij_a ij_out). intros s' x a. apply cji_b_step.
      - intros s x a y b. apply ji_coll_step.
      - intros s n. apply for_n_going. apply (ji_a_going f OJLeft).
      - intros s n. apply for_n_going. apply cji_b_going.
      - apply ji_coll_going.
    Qed.
    Lemma ipr_left_obeys f : obeys (LeftJoinOp_i (V := V) (W := W) unasked f) ij_out
      (fun x => put_under eq f (fst x, snd x, None) (fst x)) dropped
      (fun x y => put_under eq f (fst x, snd x, Some (snd y)) (fst x)).
    Proof using.
      constructor; cbn [LeftJoinOp_i mo_a mo_b mo_from_a mo_from_b mo_coll].
      - intros s a1 a2. apply (for_n_fated ij_a ij_b ij_out). intros s' x a. apply (ji_a_step f (fun k v => (k, v, None))).
      - intros s b1 b2. apply ji_drop_b_step.
      - intros s x a y b. apply (ji_coll_step f (fun k v w => (k, v, Some w))).
      - intros s n. apply for_n_going. apply (ji_a_going f (fun k v => (k, v, None))).
      - apply ji_drop_b_going.
      - apply ji_coll_going.
    Qed.
    Lemma ipr_right_obeys f : obeys (CRightJoinOp_i (V := V) (W := W) clone unasked f) ij_out
      dropped (fun y => put_under cloned f (fst y, None, snd y) (fst y))
      (fun x y => put_under eq f (fst x, Some (snd x), snd y) (fst x)).
    Proof using.
      constructor; cbn [CRightJoinOp_i mo_a mo_b mo_from_a mo_from_b mo_coll].
      - intros s a1 a2. apply ji_drop_a_step.
      - intros s b1 b2. apply (for_n_fated ij_b ij_a ij_out). intros s' x a. apply (cji_b_step f (fun k w => (k, None, w))).
      - intros s x a y b. apply (ji_coll_step f (fun k v w => (k, Some v, w))).
      - intros s n. exact I.
      - intros s n. apply for_n_going. apply cji_b_going.
      - apply ji_coll_going.
    Qed.
    Lemma ipr_inner_obeys f : obeys (InnerJoinOp_i (V := V) (W := W) unasked f) ij_out
      dropped dropped (fun x y => put_under eq f (fst x, snd x, snd y) (fst x)).
    Proof using.
      constructor; cbn [InnerJoinOp_i mo_a mo_b mo_from_a mo_from_b mo_coll].
      - intros s a1 a2. apply ji_drop_a_step.
      - intros s b1 b2. apply ji_drop_b_step.
      - intros s x a y b. apply (ji_coll_step f (fun k v w => (k, v, w))).
      - intros s n. exact I.
      - apply ji_drop_b_going.
      - apply ji_coll_going.
    Qed.
  End IPR.

  Section IP.
    Context {V : Type}.
    Notation st := (ipstate (K * V) (K * V) * E)%type.
    Definition pj_out (s : st) : list (K * V) := bd_tgt (ip_a (fst s)).
    Definition pj_a (s : st) := bd_src (ip_a (fst s)). Definition pj_b (s : st) := ip_b (fst s).
    Lemma ojp_a_step f s x a : pj_a s = x :: a ->
      match ojp_a f s with
      | Cont s' => exists o, put_under eq f (OJLeft (fst x) (snd x)) (fst x) o /\ pj_a s' = a /\ pj_b s' = pj_b s /\ pj_out s' = pj_out s ++ olist o
      | Panic s' => pj_out s' = pj_out s
      | _ => False
      end.
    Proof using.
      destruct s as [m e], x as [k v]. unfold pj_a, ojp_a, pj_b, pj_out, bd_pop_front. cbn [fst snd]. intros ->.
      pose proof (call_cases f e (OJLeft k v) k (ip_emit (MkIp (MkB (bd_tgt (ip_a m)) a (bd_drop (ip_a m))) (ip_b m) (ip_drop_b m)) k)
        (MkIp (MkB (bd_tgt (ip_a m)) a (bd_drop (ip_a m))) (ip_b m) (ip_drop_b m))) as H.
      destruct (call _ _ _ _ _) as [[m' e']|s'|[m' e']|]; try contradiction; cbn [fst].
      - destruct H as (o & H1 & -> & H2). exists o. split; [exact H1|].
        destruct o as [[k' y]|]; cbn [option_map snd ip_emit ip_a ip_b bd_src bd_tgt bd_push olist]; [subst k'; now split|].
        rewrite app_nil_r. now split.
      - now subst m'.
    Qed.
    Lemma ojp_b_step f s y b : pj_b s = y :: b ->
      match ojp_b f s with
      | Cont s' => exists o, put_under eq f (OJRight (fst y) (snd y)) (fst y) o /\ pj_b s' = b /\ pj_a s' = pj_a s /\ pj_out s' = pj_out s ++ olist o
      | Panic s' => pj_out s' = pj_out s
      | _ => False
      end.
    Proof using.
      destruct s as [m e], y as [k w]. unfold pj_b, ojp_b, pj_a, pj_out. cbn [fst snd]. intros ->.
      pose proof (call_cases f e (OJRight k w) k (ip_emit (MkIp (ip_a m) b (ip_drop_b m)) k) (MkIp (ip_a m) b (ip_drop_b m))) as H.
      destruct (call _ _ _ _ _) as [[m' e']|s'|[m' e']|]; try contradiction; cbn [fst].
      - destruct H as (o & H1 & -> & H2). exists o. split; [exact H1|].
        destruct o as [[k' y]|]; cbn [option_map snd ip_emit ip_a ip_b bd_src bd_tgt bd_push olist]; [subst k'; now split|].
        rewrite app_nil_r. now split.
      - now subst m'.
    Qed.
    Lemma ojp_coll_step f s x a y b : pj_a s = x :: a -> pj_b s = y :: b ->
      match ojp_coll f s with
      | Cont s' => exists o, put_under eq f (OJBoth (fst x) (snd x) (snd y)) (fst x) o /\ pj_a s' = a /\ pj_b s' = b /\ pj_out s' = pj_out s ++ olist o
      | Panic s' => pj_out s' = pj_out s
      | _ => False
      end.
    Proof using.
      destruct s as [m e], x as [k v], y as [k2 w]. unfold pj_a, ojp_coll, pj_b, pj_out, bd_pop_front. cbn [fst snd]. intros -> ->.
      pose proof (call_cases f e (OJBoth k v w) k (ip_emit (MkIp (MkB (bd_tgt (ip_a m)) a (bd_drop (ip_a m))) b (ip_drop_b m)) k)
        (MkIp (MkB (bd_tgt (ip_a m)) a (bd_drop (ip_a m))) b (ip_drop_b m))) as H.
      destruct (call _ _ _ _ _) as [[m' e']|s'|[m' e']|]; try contradiction; cbn [fst].
      - destruct H as (o & H1 & -> & H2). exists o. split; [exact H1|].
        destruct o as [[k' y]|]; cbn [option_map snd ip_emit ip_a ip_b bd_src bd_tgt bd_push olist]; [subst k'; now split|].
        rewrite app_nil_r. now split.
      - now subst m'.
    Qed.
    Lemma ip_outer_obeys f : obeys (OuterJoinOp_p (V := V) (W := V) unasked f) pj_out
      (fun x => put_under eq f (OJLeft (fst x) (snd x)) (fst x)) (fun y => put_under eq f (OJRight (fst y) (snd y)) (fst y))
      (fun x y => put_under eq f (OJBoth (fst x) (snd x) (snd y)) (fst x)).
    Proof using.
      constructor; cbn [OuterJoinOp_p mo_a mo_b mo_from_a mo_from_b mo_coll].
      - intros s a1 a2. apply (for_n_fated pj_a pj_b pj_out). intros s' x a. apply ojp_a_step.
      - intros s b1 b2. apply (for_n_fated pj_b pj_a pj_out). intros s' x a. apply ojp_b_step.
      - intros s x a y b. apply ojp_coll_step.
      - intros s n. apply for_n_going. intros [m e]. unfold ojp_a. destruct (bd_pop_front _) as [[[k v] bd]|]; [apply call_going|exact I].
      - intros s n. apply for_n_going. intros [m e]. unfold ojp_b. destruct (ip_b m) as [|[k v] bd]; [exact I|apply call_going].
      - intros [m e]. unfold ojp_coll. destruct (bd_pop_front _) as [[[k v] bd]|]; [|exact I]. destruct (ip_b m) as [|[k2 w] b']; [exact I|apply call_going].
    Qed.
    (** combine_with wraps its closure *)
    Definition combined (f : clos E (V * V) V) (x y : K * V) (o : option (K * V)) : Prop :=
      exists e e' v, f e (snd x, snd y) = (e', Ret v) /\ o = Some (fst x, v).
    Lemma obeys_imp {S A B R} (O : mop S A B) (vr : S -> list R) (FA FA' : A -> option R -> Prop) (FB FB' : B -> option R -> Prop)
      (FC FC' : A -> B -> option R -> Prop) : obeys O vr FA FB FC ->
      (forall x o, FA x o -> FA' x o) -> (forall x o, FB x o -> FB' x o) -> (forall x y o, FC x y o -> FC' x y o) -> obeys O vr FA' FB' FC'.
    Proof using.
      intros OB HA HB HC. constructor; try apply OB.
      - intros s a1 a2 H. pose proof (ob_a _ _ _ _ _ OB s a1 a2 H) as G. destruct (mo_from_a O s (length a1)); auto.
        + destruct G as (r & G & G'). exists r. split; [|exact G']. eapply fated_imp; eauto.
        + destruct G as (a3 & a4 & r & G1 & G2 & G3). exists a3, a4, r. split; [exact G1|]. split; [|exact G3]. eapply fated_imp; eauto.
      - intros s a1 a2 H. pose proof (ob_b _ _ _ _ _ OB s a1 a2 H) as G. destruct (mo_from_b O s (length a1)); auto.
        + destruct G as (r & G & G'). exists r. split; [|exact G']. eapply fated_imp; eauto.
        + destruct G as (a3 & a4 & r & G1 & G2 & G3). exists a3, a4, r. split; [exact G1|]. split; [|exact G3]. eapply fated_imp; eauto.
      - intros s x a y b Ha Hb. pose proof (ob_c _ _ _ _ _ OB s x a y b Ha Hb) as G. destruct (mo_coll O s); auto.
        destruct G as (o & G & G'). exists o. split; auto.
    Qed.
    Lemma ip_combine_obeys f : obeys (OuterJoinOp_p (V := V) (W := V) unasked (combine_clos f)) pj_out (passed eq) (passed eq) (combined f).
    Proof using.
      eapply obeys_imp; [apply ip_outer_obeys|..].
      - intros [k v] o (e & e' & q & H & G). cbn [fst snd] in *. injection H as <- <-. destruct G as (k' & <- & ->). now exists (k, v).
      - intros [k v] o (e & e' & q & H & G). cbn [fst snd] in *. injection H as <- <-. destruct G as (k' & <- & ->). now exists (k, v).
      - intros [k v] [k2 w] o (e & e' & q & H & G). cbn [fst snd combine_clos] in *. destruct (f e (v, w)) as [e1 [y|]] eqn:Q; [|discriminate].
        injection H as <- <-. destruct G as (k' & <- & ->). now exists e, e1, y.
    Qed.
  End IP.
End MapOps.

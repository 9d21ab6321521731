(** C123 and C124 for a moved right side; C125: TotalVecSet, C126: TotalVecMap, with all user code open. *)
From Verif Require Import TotalUserFacts PropVecUser PropRetain PropTotal.

Section C123Moved.
  Context {T E : Type} (cmp : clos E (T * T) comparison) (strat : nat -> nat -> bool).
  Local Notation moved := (passed eq).
  Local Notation alone F := (fun x _ o => F x o).
  Local Notation equal F := (fun x y o => said_equal cmp x y /\ F x o).
  (** |=, &=, ^=, -= with a moved right side: no element is ever cloned, and only [cmp] can panic. *)
  Theorem C123_set_moving a b (e : E) :
    merges (woven (alone moved) (alone moved) (equal moved)) a b (uset_or_assign cmp strat a b e) /\
    merges (woven (alone dropped) (alone dropped) (equal moved)) a b (uset_and_assign cmp strat a b e) /\
    merges (woven (alone moved) (alone moved) (equal dropped)) a b (uset_xor_assign cmp strat a b e) /\
    merges (woven (alone moved) (alone dropped) (equal dropped)) a b (uset_sub_assign cmp strat a b e) /\
    blames (threw cmp) (uset_or_assign cmp strat a b e) /\ blames (threw cmp) (uset_and_assign cmp strat a b e) /\
    blames (threw cmp) (uset_xor_assign cmp strat a b e) /\ blames (threw cmp) (uset_sub_assign cmp strat a b e).
  Proof using.
    assert (G : forall ta tb tc, merges (woven (alone (fate ta eq)) (alone (fate tb eq)) (equal (fate tc eq))) a b
      (uip_merge cmp strat (set_op uip_msm ta tb tc) a b e)).
    { intros ta tb tc. exact (wrun_merges cmp element element _ ip_out _ _ _ (ip_obeys ta tb tc) (fun _ _ _ => conj eq_refl (conj eq_refl eq_refl)) strat (ip_new a b) e eq_refl). }
    assert (B : forall ta tb tc, blames (threw cmp) (uip_merge cmp strat (set_op uip_msm ta tb tc) a b e)).
    { intros ta tb tc. pose proof (merge_blames cmp element element _ ip_out _ _ _ (ip_obeys ta tb tc) (fun _ _ _ => conj eq_refl (conj eq_refl eq_refl))
        _ (ip_guilt ta tb tc) strat (ip_new a b, e) ip_out) as H. unfold uip_merge, ip_out in *.
      destruct (to_done _ _) as [|[r e']|]; cbn [blames] in *; auto. now destruct H. }
    split; [apply (G true true true)|]. split; [apply (G false false true)|]. split; [apply (G true true false)|]. split; [apply (G true false false)|].
    split; [apply (B true true true)|]. split; [apply (B false false true)|]. split; [apply (B true true false)|apply (B true false false)].
  Qed.
End C123Moved.

Section C124Moved.
  Context {T E : Type} {kcmp : T -> T -> comparison} (L : OrdLaws kcmp) (cmp : clos E (T * T) comparison) (AL : answers_like kcmp cmp).
  Context (strat : nat -> nat -> bool).
  Local Notation moved := (passed eq).
  Local Notation both F := (fun x _ => F x).
  Local Notation merges_keys := (merges_keys (kcmp := kcmp) element element element).
  Theorem C124_set_moving a b e : ksorted (cmp := kcmp) element a -> ksorted (cmp := kcmp) element b ->
    merges_keys (point moved moved (both moved)) a b (uset_or_assign cmp strat a b e) /\
    merges_keys (point dropped dropped (both moved)) a b (uset_and_assign cmp strat a b e) /\
    merges_keys (point moved moved (both dropped)) a b (uset_xor_assign cmp strat a b e) /\
    merges_keys (point moved dropped (both dropped)) a b (uset_sub_assign cmp strat a b e).
  Proof using L AL.
    intros Sa Sb.
    assert (G : forall ta tb tc, merges_keys (point (fate ta eq) (fate tb eq) (both (fate tc eq))) a b
      (uip_merge cmp strat (set_op uip_msm ta tb tc) a b e)).
    { intros ta tb tc. apply (law_points L cmp AL element element element _ ip_out _ _ _ (ip_obeys ta tb tc)); auto; cbn beta;
        try (intros ? ?; apply fate_equal; exact (eq_equal L)); intros x _ z; apply fate_equal; exact (eq_equal L). }
    split; [apply (G true true true)|]. split; [apply (G false false true)|]. split; [apply (G true true false)|apply (G true false false)].
  Qed.
End C124Moved.

(** ** C125: TotalVecSet *)
Section C125.
  Context {T E : Type} {kcmp : T -> T -> comparison} (L : OrdLaws kcmp).
  Context (cmp : clos E (T * T) comparison) (AL : answers_like kcmp cmp) (clone : clos E T T) (CE : clones_equal kcmp clone).
  Context (strat : nat -> nat -> bool).
  Local Notation asc := (ascending kcmp).
  Local Notation made a b e := (picked (kcmp := kcmp) (E := E) a b e (one_clone clone)).
  Local Notation kept3 a b e := (picked (kcmp := kcmp) (E := E) a b e eq).
  Lemma asc_k s : asc s -> ksorted (cmp := kcmp) element (ts_elements s).
  Proof using. unfold ascending, ksorted, sorted, element. now rewrite map_id. Qed.
  Lemma k_asc l n : ksorted (cmp := kcmp) element l -> asc (TSet l n).
  Proof using. unfold ascending, ksorted, sorted, element. now rewrite map_id. Qed.
  Lemma made_ops a b e : ksorted (cmp := kcmp) element a -> ksorted (cmp := kcmp) element b ->
    made true true true a b (uset_union cmp clone strat a b e) /\ made false false true a b (uset_intersection cmp clone strat a b e) /\
    made true true false a b (uset_symmetric_difference cmp clone strat a b e) /\ made true false false a b (uset_difference cmp clone strat a b e).
  Proof using L AL CE.
    intros Sa Sb. destruct (C123_set_building cmp clone strat a b e) as (W1 & W2 & W3 & W4).
    destruct (C124_set_building L cmp AL clone CE strat a b e Sa Sb) as (K1 & K2 & K3 & K4).
    split; [exact (picked_of true true true _ _ _ (one_clone clone) _ a b _ (fun _ _ H => H) (fun _ _ H => H) (fun _ _ H => H) W1 K1)|].
    split; [exact (picked_of false false true _ _ _ (one_clone clone) _ a b _ (fun _ _ H => H) (fun _ _ H => H) (fun _ _ H => H) W2 K2)|].
    split; [exact (picked_of true true false _ _ _ (one_clone clone) _ a b _ (fun _ _ H => H) (fun _ _ H => H) (fun _ _ H => H) W3 K3)|].
    exact (picked_of true false false _ _ _ (one_clone clone) _ a b _ (fun _ _ H => H) (fun _ _ H => H) (fun _ _ H => H) W4 K4).
  Qed.
  Lemma kept_ops a b e : ksorted (cmp := kcmp) element a -> ksorted (cmp := kcmp) element b ->
    kept3 true true true a b (uset_or_assign cmp strat a b e) /\ kept3 false false true a b (uset_and_assign cmp strat a b e) /\
    kept3 true true false a b (uset_xor_assign cmp strat a b e) /\ kept3 true false false a b (uset_sub_assign cmp strat a b e).
  Proof using L AL.
    intros Sa Sb. destruct (C123_set_moving cmp strat a b e) as (W1 & W2 & W3 & W4 & _).
    destruct (C124_set_moving L cmp AL strat a b e Sa Sb) as (K1 & K2 & K3 & K4).
    split; [exact (picked_of true true true _ _ _ eq _ a b _ (fun _ _ H => H) (fun _ _ H => H) (fun _ _ H => H) W1 K1)|].
    split; [exact (picked_of false false true _ _ _ eq _ a b _ (fun _ _ H => H) (fun _ _ H => H) (fun _ _ H => H) W2 K2)|].
    split; [exact (picked_of true true false _ _ _ eq _ a b _ (fun _ _ H => H) (fun _ _ H => H) (fun _ _ H => H) W3 K3)|].
    exact (picked_of true false false _ _ _ eq _ a b _ (fun _ _ H => H) (fun _ _ H => H) (fun _ _ H => H) W4 K4).
  Qed.
  (** from the elements to the sets *)
  Lemma tagged (ta tb tc : bool) (via : T -> T -> Prop) (n n0 : bool) (op : bool -> bool -> bool) (a b : tset T) (x y : list T) (o : done (list T * E)) : picked (kcmp := kcmp) ta tb tc via x y o ->
    (x = ts_elements a /\ y = ts_elements b \/ x = ts_elements b /\ y = ts_elements a) ->
    (forall u, (if n then negb (picks ta tb tc (listed kcmp x u) (listed kcmp y u)) else picks ta tb tc (listed kcmp x u) (listed kcmp y u)) =
      op (member kcmp a u) (member kcmp b u)) ->
    computes kcmp via op a b (utag n n0 o) /\
    match utag n n0 o with Unwound (r, _) => asc r /\ ts_negated r = n0 /\ taken via a b r | _ => True end.
  Proof using.
    intros H Hxy Hop.
    assert (G : forall z, (exists y0, (In y0 x \/ In y0 y) /\ via y0 z) -> exists y0, (In y0 (ts_elements a) \/ In y0 (ts_elements b)) /\ via y0 z).
    { intros z (w & H1 & H2). exists w. split; [|exact H2]. destruct Hxy as [[-> ->]|[-> ->]]; tauto. }
    destruct o as [[r e]|[r e]|]; cbn [utag computes picked] in *.
    - destruct H as (H1 & H2 & H3). split; [|exact I]. split; [now apply k_asc|]. split.
      + intros u. unfold member at 1. cbn [ts_negated ts_elements]. rewrite H2. apply Hop.
      + intros z Hz. apply G. now apply H3.
    - destruct H as (H1 & H2). split; [exact I|]. split; [now apply k_asc|]. split; [reflexivity|]. intros z Hz. apply G. now apply H2.
    - destruct H.
  Qed.
  Ltac bools := intros u; unfold member, picks; repeat match goal with H : ts_negated _ = _ |- _ => rewrite H; clear H end;
    repeat match goal with |- context [listed kcmp ?l u] => destruct (listed kcmp l u) end; reflexivity.

  (** the operators on references *)
  Theorem C125_operators a b e : asc a -> asc b ->
    computes kcmp (one_clone clone) andb a b (utset_and cmp clone strat a b e) /\
    computes kcmp (one_clone clone) orb a b (utset_or cmp clone strat a b e) /\
    computes kcmp (one_clone clone) xorb a b (utset_xor cmp clone strat a b e) /\
    computes kcmp (one_clone clone) (fun x y => x && negb y) a b (utset_sub cmp clone strat a b e).
  Proof using L AL CE.
    intros Sa Sb. apply asc_k in Sa, Sb.
    destruct (made_ops _ _ e Sa Sb) as (U & N & X & D). destruct (made_ops _ _ e Sb Sa) as (U' & N' & X' & D').
    unfold utset_and, utset_or, utset_xor, utset_sub.
    destruct (ts_negated a) eqn:Na, (ts_negated b) eqn:Nb; cbn [xorb];
      (split; [|split; [|split]]); eapply tagged;
      try first [exact U|exact N|exact X|exact D|exact U'|exact N'|exact X'|exact D'];
      try (now left); try (now right); bools.
  Qed.
  (** the assigning operators *)
  Theorem C125_assigning a b e : asc a -> asc b ->
    (computes kcmp eq andb a b (utset_and_assign cmp strat a b e) /\ salvages kcmp a b (utset_and_assign cmp strat a b e)) /\
    (computes kcmp eq orb a b (utset_or_assign cmp strat a b e) /\ salvages kcmp a b (utset_or_assign cmp strat a b e)) /\
    (computes kcmp eq xorb a b (utset_xor_assign cmp strat a b e) /\ salvages kcmp a b (utset_xor_assign cmp strat a b e)) /\
    (computes kcmp eq (fun x y => x && negb y) a b (utset_sub_assign cmp strat a b e) /\ salvages kcmp a b (utset_sub_assign cmp strat a b e)).
  Proof using L AL.
    intros Sa Sb. apply asc_k in Sa, Sb.
    destruct (kept_ops _ _ e Sa Sb) as (U & N & X & D). destruct (kept_ops _ _ e Sb Sa) as (U' & N' & X' & D').
    unfold utset_and_assign, utset_or_assign, utset_xor_assign, utset_sub_assign, salvages.
    destruct (ts_negated a) eqn:Na, (ts_negated b) eqn:Nb; cbn [xorb];
      (split; [|split; [|split]]); eapply tagged;
      try first [exact U|exact N|exact X|exact D|exact U'|exact N'|exact X'|exact D'];
      try (now left); try (now right); bools.
  Qed.
  (** [!] on a reference *)
  Theorem C125_not a e : asc a ->
    match utset_not clone a e with
    | Done (r, _) => asc r /\ (forall x, member kcmp r x = negb (member kcmp a x)) /\
                     Forall2 (one_clone clone) (ts_elements a) (ts_elements r)
    | Unwound (_, e') => threw clone e'
    | DoneNoFuel => False
    end.
  Proof using L CE.
    intros Sa. unfold utset_not. destruct (cpush_all clone (ts_elements a) [] e) as [[r e'] ok] eqn:Q. destruct ok; [|exact (cpush_threw clone _ _ _ _ _ Q)].
    apply cpush_fated in Q as (l1 & l2 & r1 & H1 & -> & H2 & ->). rewrite app_nil_r in H1. subst l1. cbn [app].
    assert (F : Forall2 (one_clone clone) (ts_elements a) r1).
    { clear - H2. induction H2 as [|x l o r (y & H & ->) _ IH]; [constructor|]. now constructor. }
    assert (EQ : forall x, listed kcmp r1 x = listed kcmp (ts_elements a) x).
    { clear - L CE F. intros x. induction F as [|y z l r H F IH]; [reflexivity|]. cbn [listed existsb]. fold (listed kcmp r x) (listed kcmp l x).
      rewrite IH. now rewrite (cmp_eq_r L _ _ _ (CE _ _ H)). }
    split; [|split; [|exact F]].
    - unfold ascending in *. cbn [ts_elements]. clear EQ H2. revert Sa. induction F as [|y z l r H F IH]; intros Sa; [constructor|].
      inversion Sa as [|? ? S1 F1]; subst. constructor; [now apply IH|]. apply Forall_forall. intros w Hw.
      assert (exists u, In u l /\ one_clone clone u w) as (u & Hu & Cu).
      { clear - F Hw. induction F as [|y0 z0 l r H F IH]; [destruct Hw|]. destruct Hw as [<-|Hw]; [exists y0; split; [now left|exact H]|].
        destruct (IH Hw) as (u & H1 & H2). exists u. split; [now right|exact H2]. }
      rewrite (cmp_eq_l L _ _ _ (CE _ _ H)), (cmp_eq_r L _ _ _ (CE _ _ Cu)). rewrite Forall_forall in F1. auto.
    - intros x. unfold member. cbn [ts_negated ts_elements]. rewrite EQ. destruct (ts_negated a); cbn [negb]; [now rewrite negb_involutive|reflexivity].
  Qed.
End C125.

(** who is to blame for a panic: no laws needed *)
Section C125Blame.
  Context {T E : Type} (cmp : clos E (T * T) comparison) (clone : clos E T T) (strat : nat -> nat -> bool).
  Lemma utag_blames n n0 (U : E -> Prop) (o : done (list T * E)) : blames U o -> blames U (utag n n0 o).
  Proof using. now destruct o as [[l e]|[l e]|]. Qed.
  Theorem C125_panics (a b : tset T) (e : E) :
    let cc e' := threw cmp e' \/ threw clone e' in
    blames cc (utset_and cmp clone strat a b e) /\ blames cc (utset_or cmp clone strat a b e) /\
    blames cc (utset_xor cmp clone strat a b e) /\ blames cc (utset_sub cmp clone strat a b e) /\
    blames (threw cmp) (utset_and_assign cmp strat a b e) /\ blames (threw cmp) (utset_or_assign cmp strat a b e) /\
    blames (threw cmp) (utset_xor_assign cmp strat a b e) /\ blames (threw cmp) (utset_sub_assign cmp strat a b e).
  Proof using.
    intros cc.
    destruct (C123_set_panics cmp clone strat (ts_elements a) (ts_elements b) e) as (U & N & X & D & _).
    destruct (C123_set_panics cmp clone strat (ts_elements b) (ts_elements a) e) as (U' & N' & X' & D' & _).
    destruct (C123_set_moving cmp strat (ts_elements a) (ts_elements b) e) as (_ & _ & _ & _ & MU & MN & MX & MD).
    destruct (C123_set_moving cmp strat (ts_elements b) (ts_elements a) e) as (_ & _ & _ & _ & MU' & MN' & MX' & MD').
    unfold utset_and, utset_or, utset_xor, utset_sub, utset_and_assign, utset_or_assign, utset_xor_assign, utset_sub_assign.
    destruct (ts_negated a), (ts_negated b); repeat (split; [now apply utag_blames|]); now apply utag_blames.
  Qed.
End C125Blame.

(** After a panic inside an assigning operator the set can have nothing to do with what it was or was to become: the elements were
    swapped, but the flag was not yet set. [1] was not in [self] and is not in [that]; after [self &= that] has panicked it is in [self]. *)
Theorem C125_panic_mixes :
  let self := TSet [1; 2] true in let that := TSet [5; 7] false in
  let r := TSet [] true in
  utset_and_assign weary_cmp (fun _ _ => true) self that 0 = Unwound (r, 0) /\
  member Nat.compare self 1 = false /\ member Nat.compare that 1 = false /\ member Nat.compare r 1 = true.
Proof. vm_compute. repeat split. Qed.

(** ** C126: TotalVecMap *)
Section C126Any.
  Context {K V E : Type} (cmp : clos E (K * K) comparison) (clone : clos E K K) (strat : nat -> nat -> bool).
  Context (ne : clos E (V * V) bool) (f : clos E (V * V) V).
  Lemma ref_answered (da db d : V) (arg : ojarg K V V) (k : K) (o : option (K * V)) : put_under (one_clone clone) (ref_clos ne f da db d) arg k o ->
    match arg with OJLeft _ v => answered clone ne f v db d k o | OJRight _ w => answered clone ne f da w d k o | OJBoth _ v w => answered clone ne f v w d k o end.
  Proof using.
    intros (e & e' & q & H & G). unfold ref_clos in H.
    destruct arg as [k0 v|k0 w|k0 v w]; destruct (f e _) as [e1 [r|]] eqn:F; try discriminate;
      destruct (ne e1 _) as [e2 [t|]] eqn:N; try discriminate; injection H as -> <-; exists e, e1, e', r, t; (split; [exact F|]); (split; [exact N|]);
      destruct t; exact G.
  Qed.
  Lemma ref_threw (da db d : V) e' : threw (ref_clos (K := K) ne f da db d) e' -> threw f e' \/ threw ne e'.
  Proof using.
    intros (e & arg & H). unfold ref_clos in H. destruct (f e _) as [e1 [r|]] eqn:F; [|injection H as ->; left; eexists _, _; exact F].
    destruct (ne e1 _) as [e2 [t|]] eqn:N; [discriminate|]. injection H as ->. right. eexists _, _; exact N.
  Qed.
  (** Whatever the user code does: the call ends; a panic is a panic of the user; a result is made of answers to the entries of
      the two maps, each dealt with once, two together only if [cmp] called their keys equal. *)
  Theorem C126_combine_any (a b : tmap K V) (e : E) :
    let da := tm_default a in let db := tm_default b in
    match utmap_combine_ref cmp clone strat ne f a b e with
    | Some (_, Ret r) =>
        let d := tm_default r in
        (exists e1, f e (da, db) = (e1, Ret d)) /\
        woven (fun x _ => answered clone ne f (snd x) db d (fst x)) (fun y _ => answered clone ne f da (snd y) d (fst y))
          (fun x y o => said_equal cmp (fst x) (fst y) /\ answered clone ne f (snd x) (snd y) d (fst x) o) (tm_map a) (tm_map b) (tm_map r) [] []
    | Some (e', Throw) => threw cmp e' \/ threw clone e' \/ threw f e' \/ threw ne e'
    | None => False
    end.
  Proof using.
    intros da db. unfold utmap_combine_ref. fold da db. destruct (f e (da, db)) as [e1 [d|]] eqn:F.
    2:{ right. right. left. eexists _, _; exact F. }
    destruct (C123_map_joins cmp clone strat (R := V) (tm_map a) (tm_map b) e1) as (W & _). specialize (W (ref_clos ne f da db d)).
    destruct (C123_map_panics cmp clone strat (R := V) (tm_map a) (tm_map b) e1) as (B & _). specialize (B (ref_clos ne f da db d)).
    destruct (umap_outer_join _ _ _ _ _ _ _) as [[r e2]|[r e2]|]; cbn [merges blames] in *.
    - cbn [tm_default tm_map]. split; [exists e1; reflexivity|]. clear - W.
      set (a' := @nil (K * V)) in W at 1 |- * at 1. set (b' := @nil (K * V)) in W |- *.
      set (l1 := tm_map a) in *. set (l2 := tm_map b) in *. clearbody l1 l2 a' b'.
      induction W as [l1 l2|x l1 l2 o r a' b' P W IH|y l1 l2 o r a' b' P W IH|x y l1 l2 o r a' b' P W IH];
        [apply woven_stop|apply woven_a|apply woven_b|apply woven_c]; auto.
      + exact (ref_answered _ _ _ _ _ _ P).
      + exact (ref_answered _ _ _ _ _ _ P).
      + destruct P as [P1 P2]. split; [exact P1|]. exact (ref_answered _ _ _ _ _ _ P2).
    - destruct B as [B|[B|B]]; auto. right. right. now apply ref_threw in B.
    - exact W.
  Qed.
End C126Any.

Section C126.
  Context {K V E : Type} {kcmp : K -> K -> comparison} (L : OrdLaws kcmp).
  Context (cmp : clos E (K * K) comparison) (AL : answers_like kcmp cmp) (clone : clos E K K) (CE : clones_equal kcmp clone).
  Context (strat : nat -> nat -> bool) (ne : clos E (V * V) bool).
  (** With a key comparison that answers like an order, whatever the code of the values does: for each key there was one call of
      [f] on the two values, the defaults standing in, and one [!=] with the new default, which decided whether it is stored. *)
  Theorem C126_combine_ref (f : clos E (V * V) V) (a b : tmap K V) (e : E) :
    ksorted (cmp := kcmp) fst (tm_map a) -> ksorted (cmp := kcmp) fst (tm_map b) ->
    match utmap_combine_ref cmp clone strat ne f a b e with
    | Some (_, Ret r) =>
        (exists e1, f e (tm_default a, tm_default b) = (e1, Ret (tm_default r))) /\ ksorted (cmp := kcmp) fst (tm_map r) /\
        forall k, combined_at clone ne f (tm_default a) (tm_default b) (tm_default r)
          (kfind kcmp fst k (tm_map a)) (kfind kcmp fst k (tm_map b)) (kfind kcmp fst k (tm_map r))
    | Some (_, Throw) => True
    | None => False
    end.
  Proof using L AL CE.
    intros Sa Sb. pose proof (C126_combine_any cmp clone strat ne f a b e) as Q. revert Q. unfold utmap_combine_ref.
    destruct (f e _) as [e1 [d|]] eqn:F; [|trivial].
    destruct (C124_map_joins L cmp AL clone CE strat (R := V) (tm_map a) (tm_map b) e1 Sa Sb) as (W & _).
    specialize (W (ref_clos ne f (tm_default a) (tm_default b) d)).
    destruct (umap_outer_join _ _ _ _ _ _ _) as [[r e2]|[r e2]|]; cbn [merges_keys] in *; [|trivial|trivial].
    intros _. cbn [tm_default tm_map]. destruct W as [S1 W]. split; [now exists e1|]. split; [exact S1|]. intros k. specialize (W k).
    destruct (kfind kcmp fst k (tm_map a)) as [[ka v]|], (kfind kcmp fst k (tm_map b)) as [[kb w]|]; cbn [point combined_at value_or fst snd] in *;
      [exact (ref_answered _ _ _ _ _ _ _ _ _ W)|exact (ref_answered _ _ _ _ _ _ _ _ _ W)|exact (ref_answered _ _ _ _ _ _ _ _ _ W)|exact W].
  Qed.
  Context (veqb : V -> V -> bool) (VL : EqLaws veqb) (NE : differs_by veqb ne).
  Lemma kfind_self {W : Type} (m : list (K * W)) p : ksorted (cmp := kcmp) fst m -> In p m -> kfind kcmp fst (fst p) m = Some p.
  Proof using L.
    intros Sm H. apply (kfind_iff L); auto. split; [exact H|]. apply (cmp_refl L).
  Qed.
  Lemma answered_like (g : V * V -> V) (f : clos E (V * V) V) d va vb k o : acts_like veqb g f ->
    answered clone ne f va vb d k o -> match o with Some (_, v) => veqb v d = false /\ veqb v (g (va, vb)) = true | None => veqb d (g (va, vb)) = true end.
  Proof using NE VL.
    intros G (e & e1 & e2 & v & q & H1 & H2 & H3). apply NE in H2. apply G in H1. destruct q.
    - destruct H3 as (k' & _ & ->). split; [|exact H1]. now destruct (veqb v d).
    - subst o. destruct (veqb v d) eqn:Q; [|discriminate]. apply (veq_trans _ VL _ v); [now apply (veq_sym _ VL)|exact H1].
  Qed.
  (** If [f] acts like a function and [!=] is the opposite of an equivalence, the result maps each key to what [f] makes of the
      values the two maps map it to, and never stores the default. *)
  Theorem C126_index (g : V * V -> V) (f : clos E (V * V) V) (a b r : tmap K V) (e e' : E) : acts_like veqb g f ->
    ksorted (cmp := kcmp) fst (tm_map a) -> ksorted (cmp := kcmp) fst (tm_map b) ->
    utmap_combine_ref cmp clone strat ne f a b e = Some (e', Ret r) ->
    (forall k, veqb (value_at kcmp r k) (g (value_at kcmp a k, value_at kcmp b k)) = true) /\
    canonical veqb r /\ ksorted (cmp := kcmp) fst (tm_map r).
  Proof using L AL CE VL NE.
    intros G Sa Sb H. pose proof (C126_combine_ref f a b e Sa Sb) as Q. rewrite H in Q. destruct Q as ((e1 & D) & S1 & Q).
    split; [|split; [|exact S1]].
    - intros k. specialize (Q k). unfold value_at.
      destruct (kfind kcmp fst k (tm_map a)) as [[ka v]|], (kfind kcmp fst k (tm_map b)) as [[kb w]|]; cbn [combined_at value_or] in *;
        try (apply (answered_like g) in Q; [|exact G]; destruct (kfind kcmp fst k (tm_map r)) as [[kr z]|]; cbn [value_or]; tauto).
      rewrite Q. cbn [value_or]. exact (G _ _ _ _ D).
    - apply Forall_forall. intros p Hp. pose proof (kfind_self _ p S1 Hp) as R. specialize (Q (fst p)). rewrite R in Q. destruct p as [kp vp]. cbn [fst snd] in *.
      destruct (kfind kcmp fst kp (tm_map a)) as [[ka v]|], (kfind kcmp fst kp (tm_map b)) as [[kb w]|]; cbn [combined_at value_or] in *;
        try (apply (answered_like g) in Q; [|exact G]; tauto). discriminate.
  Qed.
  (** [+], [-], [*], [/]: the values are cloned and handed to the operator *)
  Theorem C126_arith (vclone : clos E V V) (op : clos E (V * V) V) (g : V * V -> V) (a b r : tmap K V) (e e' : E) :
    acts_like veqb (fun v => v) vclone -> acts_like veqb g op ->
    (forall x x' y y', veqb x' x = true -> veqb y' y = true -> veqb (g (x', y')) (g (x, y)) = true) ->
    ksorted (cmp := kcmp) fst (tm_map a) -> ksorted (cmp := kcmp) fst (tm_map b) ->
    utmap_arith cmp clone strat ne vclone op a b e = Some (e', Ret r) ->
    (forall k, veqb (value_at kcmp r k) (g (value_at kcmp a k, value_at kcmp b k)) = true) /\
    canonical veqb r /\ ksorted (cmp := kcmp) fst (tm_map r).
  Proof using L AL CE VL NE.
    intros VC OP CG. apply C126_index. intros e0 [x y] e1 v H. unfold arith_clos in H. cbn [fst snd] in H.
    destruct (vclone e0 x) as [e2 [x'|]] eqn:H1; [|discriminate]. destruct (vclone e2 y) as [e3 [y'|]] eqn:H2; [|discriminate].
    apply OP in H. apply VC in H1, H2. apply (veq_trans _ VL _ (g (x', y'))); auto.
  Qed.
  (** supremum and infimum *)
  Theorem C126_lattice (vclone : clos E V V) (gt : clos E (V * V) bool) (vgt : V -> V -> bool) (a b r : tmap K V) (e e' : E) :
    acts_like veqb (fun v => v) vclone -> (forall e x y e' q, gt e (x, y) = (e', Ret q) -> q = vgt x y) ->
    ksorted (cmp := kcmp) fst (tm_map a) -> ksorted (cmp := kcmp) fst (tm_map b) ->
    (utmap_supremum cmp clone strat ne gt vclone a b e = Some (e', Ret r) ->
      (forall k, let x := value_at kcmp a k in let y := value_at kcmp b k in veqb (value_at kcmp r k) (if vgt x y then x else y) = true) /\
      canonical veqb r /\ ksorted (cmp := kcmp) fst (tm_map r)) /\
    (utmap_infimum cmp clone strat ne gt vclone a b e = Some (e', Ret r) ->
      (forall k, let x := value_at kcmp a k in let y := value_at kcmp b k in veqb (value_at kcmp r k) (if vgt x y then y else x) = true) /\
      canonical veqb r /\ ksorted (cmp := kcmp) fst (tm_map r)).
  Proof using L AL CE VL NE.
    intros VC GT Sa Sb. split; intros H.
    - apply (C126_index (fun p => if vgt (fst p) (snd p) then fst p else snd p)) in H; auto.
      intros e0 [x y] e1 v G. unfold max_clos in G. destruct (gt e0 (x, y)) as [e2 [q|]] eqn:Q; [|discriminate]. apply GT in Q. subst q. exact (VC _ _ _ _ G).
    - apply (C126_index (fun p => if vgt (fst p) (snd p) then snd p else fst p)) in H; auto.
      intros e0 [x y] e1 v G. unfold min_clos in G. destruct (gt e0 (x, y)) as [e2 [q|]] eqn:Q; [|discriminate]. apply GT in Q. subst q. exact (VC _ _ _ _ G).
  Qed.
End C126.

(** what can panic inside the operators *)
Theorem C126_panics {K V E : Type} (cmp : clos E (K * K) comparison) (clone : clos E K K) (strat : nat -> nat -> bool) (ne : clos E (V * V) bool)
  (vclone : clos E V V) (op : clos E (V * V) V) (gt : clos E (V * V) bool) (a b : tmap K V) (e : E) :
  let guilty {X Y} (f : clos E X Y) (o : option (E * cres (tmap K V))) :=
    match o with Some (e', Throw) => threw cmp e' \/ threw clone e' \/ threw ne e' \/ threw vclone e' \/ threw f e' | Some (_, Ret _) => True | None => False end in
  guilty op (utmap_arith cmp clone strat ne vclone op a b e) /\
  guilty gt (utmap_supremum cmp clone strat ne gt vclone a b e) /\ guilty gt (utmap_infimum cmp clone strat ne gt vclone a b e).
Proof.
  intros g. unfold g, utmap_arith, utmap_supremum, utmap_infimum. split; [|split].
  - pose proof (C126_combine_any cmp clone strat ne (arith_clos vclone op) a b e) as Q. destruct (utmap_combine_ref _ _ _ _ _ _ _ _) as [[e' [r|]]|]; [trivial| |exact Q].
    destruct Q as [Q|[Q|[(e0 & [x y] & Q)|Q]]]; auto. unfold arith_clos in Q. cbn [fst snd] in Q. do 3 right.
    destruct (vclone e0 x) as [e2 [x'|]] eqn:H1; [|injection Q as ->; left; now exists e0, x].
    destruct (vclone e2 y) as [e3 [y'|]] eqn:H2; [|injection Q as ->; left; now exists e2, y]. right. now exists e3, (x', y').
  - pose proof (C126_combine_any cmp clone strat ne (max_clos gt vclone) a b e) as Q. destruct (utmap_combine_ref _ _ _ _ _ _ _ _) as [[e' [r|]]|]; [trivial| |exact Q].
    destruct Q as [Q|[Q|[(e0 & p & Q)|Q]]]; auto. unfold max_clos in Q. do 3 right.
    destruct (gt e0 p) as [e2 [q|]] eqn:H1; [|injection Q as ->; right; now exists e0, p]. left. eexists _, _. exact Q.
  - pose proof (C126_combine_any cmp clone strat ne (min_clos gt vclone) a b e) as Q. destruct (utmap_combine_ref _ _ _ _ _ _ _ _) as [[e' [r|]]|]; [trivial| |exact Q].
    destruct Q as [Q|[Q|[(e0 & p & Q)|Q]]]; auto. unfold min_clos in Q. do 3 right.
    destruct (gt e0 p) as [e2 [q|]] eqn:H1; [|injection Q as ->; right; now exists e0, p]. left. eexists _, _. exact Q.
Qed.

(** map_values *)
Section C126Values.
  Context {K V W E : Type} (clone : clos E K K) (ne : clos E (W * W) bool) (f : clos E V W).
  Lemma entries_each d l : forall e e' q, utmap_entries clone ne f d l e = (e', q) ->
    match q with Ret r => each_to (mapped_to clone ne f d) l r | Throw => threw clone e' \/ threw ne e' \/ threw f e' end.
  Proof using.
    induction l as [|[k v] l IH]; intros e e' q H; cbn [utmap_entries] in H.
    - injection H as <- <-. exists []. split; [constructor|reflexivity].
    - destruct (f e v) as [e1 [w|]] eqn:F; [|injection H as <- <-; right; right; now exists e, v].
      destruct (ne e1 (w, d)) as [e2 [t|]] eqn:N; [|injection H as <- <-; right; left; now exists e1, (w, d)]. destruct t.
      + destruct (clone e2 k) as [e3 [k'|]] eqn:C; [|injection H as <- <-; left; now exists e2, k].
        destruct (utmap_entries clone ne f d l e3) as [e4 [r|]] eqn:R; injection H as <- <-; apply IH in R; [|exact R].
        destruct R as (os & F2 & ->). exists (Some (k', w) :: os). split; [|reflexivity]. constructor; [|exact F2].
        exists e, e1, e2, w, true. split; [exact F|]. split; [exact N|]. exists k'. split; [now exists e2, e3|reflexivity].
      + apply IH in H. destruct q as [r|]; [|exact H]. destruct H as (os & F2 & ->). exists (None :: os). split; [|reflexivity].
        constructor; [|exact F2]. exists e, e1, e2, w, false. split; [exact F|]. now split.
  Qed.
  Theorem C126_map_values (m : tmap K V) (e : E) :
    match utmap_map_values clone ne f m e with
    | (_, Ret r) => (exists e1, f e (tm_default m) = (e1, Ret (tm_default r))) /\ each_to (mapped_to clone ne f (tm_default r)) (tm_map m) (tm_map r)
    | (e', Throw) => threw clone e' \/ threw ne e' \/ threw f e'
    end.
  Proof using.
    unfold utmap_map_values. destruct (f e (tm_default m)) as [e1 [d|]] eqn:F; [|right; right; now exists e, (tm_default m)].
    destruct (utmap_entries clone ne f d (tm_map m) e1) as [e2 [r|]] eqn:R; apply entries_each in R; [|exact R].
    cbn [tm_default tm_map]. split; [now exists e1|exact R].
  Qed.
  Context {kcmp : K -> K -> comparison} (L : OrdLaws kcmp) (CE : clones_equal kcmp clone).
  Lemma each_points {X Y : Type} (P : K * X -> option (K * Y) -> Prop) l r : (forall x z, P x (Some z) -> kcmp (fst z) (fst x) = Eq) ->
    ksorted (cmp := kcmp) fst l -> each_to P l r ->
    ksorted (cmp := kcmp) fst r /\ (forall z, In z r -> exists x, In x l /\ P x (Some z)) /\
    forall k, match kfind kcmp fst k l with Some x => P x (kfind kcmp fst k r) | None => kfind kcmp fst k r = None end.
  Proof using L.
    intros HP Sl (os & F & ->). induction F as [|x o l os Px F IH]; cbn [map concat].
    - split; [constructor|]. split; [intros ? []|reflexivity].
    - apply ksorted_cons in Sl as [Sl Fx]. destruct (IH Sl) as (S1 & O1 & I1). set (r := concat (map olist os)) in *.
      assert (LT : Forall (fun z => kcmp (fst x) (fst z) = Lt) r).
      { apply Forall_forall. intros z Hz. destruct (O1 z Hz) as (y & H1 & H2). rewrite (cmp_eq_r L _ _ _ (HP _ _ H2)). auto. }
      assert (GO : forall k, kcmp k (fst x) = Eq -> kfind kcmp fst k r = None).
      { intros k Hk. apply kfind_None. intros z Hz G. rewrite Forall_forall in LT. specialize (LT z Hz). rewrite <- (cmp_eq_l L _ _ _ Hk) in LT. congruence. }
      split; [|split].
      + destruct o as [z|]; cbn [olist app]; [|exact S1]. apply ksorted_cons. split; [exact S1|].
        intros z0 H0. rewrite (cmp_eq_l L _ _ _ (HP _ _ Px)). rewrite Forall_forall in LT. auto.
      + intros z Hz. apply in_app_or in Hz as [Hz|Hz]; [|destruct (O1 z Hz) as (y & H1 & H2); exists y; split; [now right|exact H2]].
        destruct o as [z0|]; [|destruct Hz]. destruct Hz as [<-|[]]. exists x. split; [now left|exact Px].
      + intros k. rewrite kfind_cons. unfold eqb_of. destruct (kcmp k (fst x)) eqn:Q.
        * destruct o as [z|]; cbn [olist app]; [|now rewrite (GO k Q)]. rewrite kfind_cons. unfold eqb_of. now rewrite (cmp_eq_r L _ _ _ (HP _ _ Px)), Q.
        * destruct o as [z|]; cbn [olist app]; [|apply I1]. rewrite kfind_cons. unfold eqb_of. rewrite (cmp_eq_r L _ _ _ (HP _ _ Px)), Q. apply I1.
        * destruct o as [z|]; cbn [olist app]; [|apply I1]. rewrite kfind_cons. unfold eqb_of. rewrite (cmp_eq_r L _ _ _ (HP _ _ Px)), Q. apply I1.
  Qed.
  Context (veqb : W -> W -> bool) (VL : EqLaws veqb) (NE : differs_by veqb ne).
  Theorem C126_map_values_index (g : V -> W) (m : tmap K V) (r : tmap K W) (e e' : E) : acts_like veqb g f ->
    ksorted (cmp := kcmp) fst (tm_map m) -> utmap_map_values clone ne f m e = (e', Ret r) ->
    (forall k, veqb (value_at kcmp r k) (g (value_at kcmp m k)) = true) /\ canonical veqb r /\ ksorted (cmp := kcmp) fst (tm_map r).
  Proof using L CE VL NE.
    intros G Sm H. pose proof (C126_map_values m e) as Q. rewrite H in Q. destruct Q as ((e1 & D) & Q).
    assert (M : forall x o, mapped_to clone ne f (tm_default r) x o ->
      match o with Some z => kcmp (fst z) (fst x) = Eq /\ veqb (snd z) (tm_default r) = false /\ veqb (snd z) (g (snd x)) = true | None => veqb (tm_default r) (g (snd x)) = true end).
    { intros x o (e2 & e3 & e4 & w & q & H1 & H2 & H3). apply G in H1. apply NE in H2. destruct q.
      - destruct H3 as (k' & C & ->). cbn [fst snd]. split; [exact (CE _ _ C)|]. split; [now destruct (veqb w (tm_default r))|exact H1].
      - subst o. destruct (veqb w (tm_default r)) eqn:T; [|discriminate]. apply (veq_trans _ VL _ w); [now apply (veq_sym _ VL)|exact H1]. }
    apply each_points in Q; [|intros x z P; exact (proj1 (M x (Some z) P))|exact Sm]. destruct Q as (S1 & O & I).
    split; [|split; [|exact S1]].
    - intros k. specialize (I k). unfold value_at. destruct (kfind kcmp fst k (tm_map m)) as [[ka v]|]; cbn [value_or].
      + apply M in I. destruct (kfind kcmp fst k (tm_map r)) as [[kr w]|]; cbn [value_or fst snd] in *; tauto.
      + rewrite I. cbn [value_or]. exact (G _ _ _ _ D).
    - apply Forall_forall. intros z Hz. destruct (O z Hz) as (x & _ & P). apply M in P. tauto.
  Qed.
End C126Values.

(** new *)
Section C126New.
  Context {K V E : Type} (ne : clos E (V * V) bool).
  Lemma judge_sifts d (m : list (K * V)) : forall e acc e' ok, judge (fun e p => ne e (snd p, d)) m e = (acc, e', ok) ->
    if ok : bool then each_to (sifted ne d) m acc else threw ne e'.
  Proof using.
    induction m as [|x m IH]; intros e acc e' ok H; cbn [judge] in H.
    - injection H as <- <- <-. exists []. split; [constructor|reflexivity].
    - destruct (ne e (snd x, d)) as [e1 [t|]] eqn:N; [|injection H as <- <- <-; now exists e, (snd x, d)].
      destruct (judge _ m e1) as [[k e3] ok0] eqn:J. injection H as <- <- ->. apply IH in J. destruct ok; [|exact J].
      destruct J as (os & F & ->). exists ((if t then Some x else None) :: os). split; [|now destruct t].
      constructor; [|exact F]. exists e, e1, t. now split.
  Qed.
  Theorem C126_new (m : list (K * V)) (d : V) (e : E) :
    match utmap_new ne m d e with
    | Some (_, Ret r) => tm_default r = d /\ each_to (sifted ne d) m (tm_map r)
    | Some (e', Throw) => threw ne e'
    | None => False
    end.
  Proof using.
    unfold utmap_new, wmap_retain. pose proof (retain_loop_spec (fun e p => ne e (snd p, d)) m [] [] e) as H. cbn [app length Nat.add] in H.
    fold (wset_retain (fun e p => ne e (snd p, d)) m e) in H. destruct (judge _ m e) as [[acc e1] ok] eqn:J. apply judge_sifts in J.
    destruct H as (l' & H & _). rewrite H. destruct ok; [|exact J]. cbn [tm_default tm_map]. now split.
  Qed.
  Context {kcmp : K -> K -> comparison} (L : OrdLaws kcmp) (veqb : V -> V -> bool) (VL : EqLaws veqb) (NE : differs_by veqb ne).
  Theorem C126_new_index (m : list (K * V)) (d : V) (r : tmap K V) (e e' : E) :
    ksorted (cmp := kcmp) fst m -> utmap_new ne m d e = Some (e', Ret r) ->
    (forall k, veqb (value_at kcmp r k) (value_or d (kfind kcmp fst k m)) = true) /\ canonical veqb r /\ ksorted (cmp := kcmp) fst (tm_map r).
  Proof using L VL NE.
    intros Sm H. pose proof (C126_new m d e) as Q. rewrite H in Q. destruct Q as (<- & Q).
    apply (each_points L) in Q; [|intros x z (e0 & e1 & [|] & _ & [= ->]); apply (cmp_refl L)|exact Sm]. destruct Q as (S1 & O & I).
    split; [|split; [|exact S1]].
    - intros k. specialize (I k). unfold value_at. destruct (kfind kcmp fst k m) as [[ka v]|]; cbn [value_or].
      + destruct I as (e1 & e2 & q & N & ->). apply NE in N. cbn [snd] in N. destruct q; cbn [value_or]; [apply (veq_refl _ VL)|].
        apply (veq_sym _ VL). now destruct (veqb v (tm_default r)).
      + rewrite I. apply (veq_refl _ VL).
    - apply Forall_forall. intros z Hz. destruct (O z Hz) as (x & _ & e1 & e2 & q & N & P). apply NE in N. destruct q; [|discriminate]. injection P as ->.
      now destruct (veqb (snd x) (tm_default r)).
  Qed.
End C126New.

(** ** Witnesses *)
Definition weary_ne : clos nat (nat * nat) bool := weary (fun p => negb (Nat.eqb (fst p) (snd p))).
Example weary_values : EqLaws Nat.eqb /\ differs_by Nat.eqb weary_ne /\ acts_like Nat.eqb (fun p => fst p + snd p) (weary (fun p => fst p + snd p)) /\
  acts_like Nat.eqb (fun v => v) (weary (fun v => v)).
Proof.
  split; [|split; [|split]].
  - constructor; [apply Nat.eqb_refl|intros x y H; apply Nat.eqb_eq in H as ->; apply Nat.eqb_refl|intros x y z H; apply Nat.eqb_eq in H as ->; trivial].
  - intros [|e] x y e' q [= <- <-]. reflexivity.
  - intros [|e] x e' q [= <- <-]. apply Nat.eqb_refl.
  - intros [|e] x e' q [= <- <-]. apply Nat.eqb_refl.
Qed.
Definition ids0 : clos nat nat nat := weary (fun v => v).
Definition yes (_ _ : nat) : bool := true.
Example weary_sets :
  ascending Nat.compare (TSet [1; 3; 5] true) /\ ascending Nat.compare (TSet [2; 3] false) /\
  utset_and weary_cmp ids0 yes (TSet [1; 3; 5] true) (TSet [2; 3] false) 9 = Done (TSet [2] false, 5) /\
  utset_or weary_cmp ids0 yes (TSet [1; 3; 5] true) (TSet [2; 3] false) 9 = Done (TSet [1; 5] true, 4) /\
  utset_or weary_cmp ids0 yes (TSet [1; 3; 5] true) (TSet [2; 3] false) 2 = Unwound (TSet [1] true, 0) /\
  utset_sub_assign weary_cmp yes (TSet [1; 3; 5] true) (TSet [2; 3] false) 9 = Done (TSet [1; 2; 3; 5] true, 6) /\
  utset_sub_assign weary_cmp yes (TSet [1; 3; 5] true) (TSet [2; 3] false) 1 = Unwound (TSet [1] true, 0) /\
  utset_not ids0 (TSet [1; 3; 5] true) 5 = Done (TSet [1; 3; 5] false, 2).
Proof. split; [repeat constructor|]. split; [repeat constructor|]. vm_compute. repeat split. Qed.
Example weary_maps :
  ksorted (cmp := Nat.compare) fst [(1, 10); (3, 30)] /\ ksorted (cmp := Nat.compare) fst [(2, 7); (3, 5)] /\
  utmap_arith weary_cmp ids0 yes weary_ne ids0 (weary (fun p => fst p + snd p)) (TMap [(1, 10); (3, 30)] 5) (TMap [(2, 7); (3, 5)] 30) 40
    = Some (20, Ret (TMap [(1, 40); (2, 12)] 35)) /\
  utmap_arith weary_cmp ids0 yes weary_ne ids0 (weary (fun p => fst p + snd p)) (TMap [(1, 10); (3, 30)] 5) (TMap [(2, 7); (3, 5)] 30) 9 = Some (0, Throw) /\
  utmap_map_values ids0 weary_ne (weary (fun v => v / 10)) (TMap [(1, 10); (3, 37)] 39) 20 = (14, Ret (TMap [(1, 1)] 3)) /\
  utmap_new weary_ne [(1, 10); (3, 37)] 10 20 = Some (18, Ret (TMap [(3, 37)] 10)).
Proof. split; [repeat constructor|]. split; [repeat constructor|]. vm_compute. repeat split. Qed.

Print Assumptions C123_set_moving.
Print Assumptions C124_set_moving.
Print Assumptions C125_operators.
Print Assumptions C125_assigning.
Print Assumptions C125_not.
Print Assumptions C125_panics.
Print Assumptions C125_panic_mixes.
Print Assumptions C126_combine_any.
Print Assumptions C126_combine_ref.
Print Assumptions C126_index.
Print Assumptions C126_arith.
Print Assumptions C126_lattice.
Print Assumptions C126_panics.
Print Assumptions C126_map_values.
Print Assumptions C126_map_values_index.
Print Assumptions C126_new.
Print Assumptions C126_new_index.

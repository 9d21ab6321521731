(** Property C73: retain with a predicate that has effects and may panic. *)
From Verif Require Import RetainModel StdFacts PropSet.
Require Import Coq.Sorting.Permutation.

(** What a caller expects: the predicate is asked once per element, in order; [judge] gives the
    accepted elements, the final environment and whether every call returned. *)
Fixpoint judge {T E} (f : clos E T bool) (l : list T) (e : E) : list T * E * bool :=
  match l with
  | [] => ([], e, true)
  | x :: l' =>
      let (e', r) := f e x in
      match r with
      | Throw => ([], e', false)
      | Ret b => let '(k, e'', ok) := judge f l' e' in ((if b then x :: k else k), e'', ok)
      end
  end.

Lemma nth_error_mid {T} (l1 l2 : list T) x : nth_error (l1 ++ x :: l2) (length l1) = Some x.
Proof. induction l1; auto. Qed.
Lemma set_at_mid {T} (l1 l2 : list T) x y : set_at (length l1) y (l1 ++ x :: l2) = l1 ++ y :: l2.
Proof.
  unfold set_at. rewrite firstn_app, Nat.sub_diag, firstn_all. cbn [firstn]. rewrite app_nil_r. f_equal. f_equal.
  replace (l1 ++ x :: l2) with ((l1 ++ [x]) ++ l2) by now rewrite <- app_assoc.
  replace (S (length l1)) with (length (l1 ++ [x])) by (rewrite app_length; cbn; lia).
  now rewrite skipn_app, skipn_all, Nat.sub_diag.
Qed.
Lemma swap_mid {T} (k j r : list T) y x :
  swap_at (length k) (length k + S (length j)) (k ++ y :: j ++ x :: r) = Some (k ++ x :: j ++ y :: r).
Proof.
  unfold swap_at. rewrite nth_error_mid.
  replace (k ++ y :: j ++ x :: r) with ((k ++ y :: j) ++ x :: r) by now rewrite <- app_assoc.
  replace (length k + S (length j)) with (length (k ++ y :: j)) by (rewrite app_length; cbn; lia).
  rewrite nth_error_mid, set_at_mid. rewrite <- app_assoc. cbn. now rewrite set_at_mid.
Qed.

Lemma retain_loop_spec {T E} (f : clos E T bool) (rest : list T) :
  forall (k j : list T) (e : E),
  let '(acc, e', ok) := judge f rest e in
  exists l', retain_loop f (length rest) (length k + length j) (length j) (k ++ j ++ rest) e =
    (if ok then Done (k ++ acc, e') else Unwound (l', e')) /\ Permutation l' (k ++ j ++ rest).
Proof.
  induction rest as [|x rest IH]; intros k j e; cbn [judge length retain_loop].
  - exists (k ++ j ++ []). split; [|reflexivity]. f_equal. f_equal. rewrite !app_nil_r, app_length.
    replace (length k + length j - length j) with (length k) by lia.
    rewrite firstn_app, Nat.sub_diag, firstn_all. cbn. apply app_nil_r.
  - assert (N : nth_error (k ++ j ++ x :: rest) (length k + length j) = Some x)
      by (rewrite <- app_length, app_assoc; apply nth_error_mid).
    rewrite N. clear N.
    destruct (f e x) as [e1 [[|]|]].
    + destruct j as [|y j]; cbn [length Nat.ltb Nat.leb].
      * specialize (IH (k ++ [x]) [] e1). destruct (judge f rest e1) as [[acc e2] ok].
        destruct IH as (l' & IH & P). cbn [app] in IH, P |- *. rewrite <- !app_assoc in IH. cbn [app] in IH.
        rewrite app_length in IH. cbn [length] in IH.
        replace (S (length k + 0)) with (length k + 1 + 0) by lia.
        exists l'. split; [exact IH|]. now rewrite <- app_assoc in P.
      * replace (length k + S (length j) - S (length j)) with (length k) by lia.
        cbn [app]. rewrite swap_mid.
        specialize (IH (k ++ [x]) (j ++ [y]) e1). destruct (judge f rest e1) as [[acc e2] ok].
        destruct IH as (l' & IH & P). rewrite !app_length in IH. cbn [length] in IH.
        rewrite <- !app_assoc in IH. cbn [app] in IH.
        replace (S (length k + S (length j))) with (length k + 1 + (length j + 1)) by lia.
        replace (length j + 1) with (S (length j)) in * by lia.
        exists l'. split; [exact IH|].
        rewrite P, <- !app_assoc. cbn [app]. apply Permutation_app_head.
        rewrite <- !Permutation_middle. apply perm_swap.
    + specialize (IH k (j ++ [x]) e1). destruct (judge f rest e1) as [[acc e2] ok].
      destruct IH as (l' & IH & P). rewrite <- app_assoc in IH, P. rewrite app_length in IH. cbn [length app] in IH, P.
      replace (S (length k + length j)) with (length k + (length j + 1)) by lia.
      replace (S (length j)) with (length j + 1) by lia.
      exists l'. split; [exact IH|exact P].
    + exists (k ++ j ++ x :: rest). split; [reflexivity|reflexivity].
Qed.

(** ** C73: retain keeps exactly the accepted elements, in order, for any stateful predicate *)
Theorem C73_retain_exact :
  forall (T E : Type) (f : clos E T bool) (l : list T) (e : E) (acc : list T) (e' : E),
    judge f l e = (acc, e', true) -> wset_retain f l e = Done (acc, e').
Proof.
  intros T E f l e acc e' H. pose proof (retain_loop_spec f l [] [] e) as S. rewrite H in S.
  destruct S as (l' & S & _). exact S.
Qed.
Print Assumptions C73_retain_exact.
(** the accepted elements of a valid set form a valid set *)
Theorem C73_retain_valid :
  forall (T E : Type) (cmp : T -> T -> comparison) (f : clos E T bool) (l r : list T) (e e' : E),
    OrdLaws cmp -> sorted cmp l -> wset_retain f l e = Done (r, e') ->
    sorted cmp r /\ (forall x, In x r -> In x l).
Proof.
  intros T E cmp f l r e e' L. pose proof (retain_loop_spec f l [] [] e) as S. cbn [app length Nat.add] in S.
  fold (wset_retain f l e) in S.
  destruct (judge f l e) as [[acc e1] ok] eqn:J. destruct S as (l' & S & _).
  intros Sl H. rewrite S in H. destruct ok; [|discriminate]. injection H as -> ->. clear S l'.
  revert e r J. induction l as [|x l IH]; intros e r J; cbn [judge] in J.
  - injection J as <- <-. split; [constructor|intros ? []].
  - inversion Sl as [|? ? S1 F1]; subst. destruct (f e x) as [e2 [b|]]; [|discriminate].
    destruct (judge f l e2) as [[k e3] ok] eqn:J2. injection J as <- <- ->.
    destruct (IH S1 e2 k J2) as [I1 I2]. destruct b.
    + split.
      * constructor; [exact I1|]. rewrite Forall_forall in *. auto.
      * intros y [<-|Hy]; [now left|right; auto].
    + split; [exact I1|]. intros y Hy. right. auto.
Qed.
Print Assumptions C73_retain_valid.

(** a panic of the predicate unwinds retain; nothing is lost or duplicated *)
Theorem C73_retain_panic_conserves :
  forall (T E : Type) (f : clos E T bool) (l : list T) (e : E) (acc : list T) (e' : E),
    judge f l e = (acc, e', false) ->
    exists l', wset_retain f l e = Unwound (l', e') /\ Permutation l' l.
Proof.
  intros T E f l e acc e' H. pose proof (retain_loop_spec f l [] [] e) as S. rewrite H in S. exact S.
Qed.
Print Assumptions C73_retain_panic_conserves.

(** but the set left behind need not be a valid one: a set of three numbers, the predicate rejects
    the first, accepts the second and panics on the third; the first element is then no longer found
    although it is still there *)
Definition rejects_then_panics : clos nat nat bool :=
  fun e x => (S e, match e with 0 => Ret false | 1 => Ret true | _ => Throw end).
Theorem C73_retain_panic_valid_refuted :
  exists (l l' : list nat) (f : clos nat nat bool) (e' : nat) (x : nat),
    sorted Nat.compare l /\ wset_retain f l 0 = Unwound (l', e') /\
    ~ sorted Nat.compare l' /\ In x l' /\ vset_contains Nat.compare l' x = false.
Proof.
  exists [1;2;3], [2;1;3], rejects_then_panics, 3, 2.
  split; [now apply sortedb_ok|]. split; [reflexivity|]. split; [|split; [now left|reflexivity]].
  intros H. inversion H as [|? ? _ F]; subst. inversion F as [|? ? Q _]; subst. discriminate Q.
Qed.
Print Assumptions C73_retain_panic_valid_refuted.
Example C73_witness :
  judge (fun e x => (S e, Ret (Nat.even (x + e)))) [1;2;3;4;6;9] 0 = ([6;9], 6, true) /\
  wset_retain (fun e x => (S e, Ret (Nat.even (x + e)))) [1;2;3;4;6;9] 0 = Done ([6;9], 6) /\
  judge rejects_then_panics [1;2;3] 0 = ([2], 3, false).
Proof. vm_compute. auto. Qed.

(** C74-C76: the in-place combinations of radix trees with closures that have effects and may panic.
    Specification: RadixEffSpec.v ([join], [remains], [asks], [selected], [remains_prefix]). *)
From Verif Require Import RadixEffPrefix RadixCanon PropRadix.

Section PropRadixEff.
  Context {K : Type} (kcmp : K -> K -> comparison) (L : OrdLaws kcmp) (EQ : OrdEq kcmp).
  Context (strat : nat -> nat -> bool) {E : Type}.
  Notation WO := (WO kcmp).
  Notation Canon := (Canon kcmp).

  (** [listing] is what iterating the tree yields *)
  Theorem C74_listing_is_iter {V} (t : rtree K V) : rt_iter t = Ok (listing t).
  Proof. apply iter_listing. Qed.

  (** [r] is what the join of the two listings says. [canon]: the inputs are canonical *)
  Definition joins {V W} (ka : bool) (hb : W -> option V) (f : mclos E V W) (canon : Prop)
    (self : rtree K V) (that : rtree K W) (e : E) (r : done (rtree K V * E)) : Prop :=
    match join kcmp ka hb f (listing self) (listing that) e with
    | (out, e', None) => exists t, r = Done (t, e') /\ listing t = out /\ WO t /\ (canon -> Canon t)
    | (out, e', Some (k, v)) => exists t, r = Unwound (t, e') /\ WO t /\
        remains kcmp (lcp kcmp (t_prefix self) (t_prefix that)) self out k v t
    end.

  Lemma joins_intro {V W} ka hb (f : mclos E V W) (canon : Prop) self that e r :
    tspec (kcmp := kcmp) ka hb f false self that e r -> (canon -> tspec (kcmp := kcmp) ka hb f true self that e r) ->
    joins ka hb f canon self that e r.
  Proof.
    unfold tspec, joins. destruct (join kcmp ka hb f (listing self) (listing that) e) as [[o e'] [[k v]|]].
    - intros (t & H1 & H2 & H3) _. exists t. split; [auto|]. split; [|auto]. destruct t. apply wf_node. split; [auto|discriminate].
    - intros (t & H1 & H2 & H3 & _) HC. exists t. split; [auto|]. split; [auto|]. split; [auto|].
      intros C. destruct (HC C) as (t' & H1' & H2' & _). rewrite H1 in H1'. injection H1' as <-. exact H2'.
  Qed.

  Theorem C74_outer_combine_with {V} (f : mclos E V V) (self that : rtree K V) e : WO self -> WO that ->
    joins true Some f (Canon self /\ Canon that) self that e (ert_outer_combine_with kcmp strat f self that e).
  Proof.
    intros Wa Wb. unfold ert_outer_combine_with.
    apply joins_intro; [|intros [Ca Cb]]; apply (eouter_spec L EQ); auto.
  Qed.
  Theorem C74_inner_combine_with {V W} (f : mclos E V W) (self : rtree K V) (that : rtree K W) e : WO self -> WO that ->
    joins false (fun _ => None) f (Canon self) self that e (ert_inner_combine_with kcmp strat f self that e).
  Proof.
    intros Wa Wb. unfold ert_inner_combine_with.
    apply joins_intro; [|intros Ca]; apply (einner_spec L EQ) with (qb := false); auto.
  Qed.
  Theorem C74_left_combine_with {V W} (f : mclos E V W) (self : rtree K V) (that : rtree K W) e : WO self -> WO that ->
    joins true (fun _ => None) f (Canon self) self that e (ert_left_combine_with kcmp strat f self that e).
  Proof.
    intros Wa Wb. unfold ert_left_combine_with.
    apply joins_intro; [|intros Ca]; apply (eleft_spec L EQ) with (qb := false); auto.
  Qed.

  (** ** C75 *)
  (** the damage of a panic is confined to the root: the children are canonical, not empty and in order *)
  Definition sound_below_root {V} (t : rtree K V) : Prop :=
    Forall (fun c => Canon c /\ t_is_empty c = false /\ t_prefix c <> []) (t_children t) /\ WO t.
  Lemma wfc_sound {V} (t : rtree K V) : wfc (kcmp := kcmp) true (t_children t) -> sound_below_root t.
  Proof.
    intros H. split.
    - apply Forall_forall. intros c Hc. destruct (wfc_In _ _ _ H Hc) as (H1 & H2 & H3). auto.
    - destruct t. apply wf_node. split; [eapply wfc_weaken; eauto|discriminate].
  Qed.
  Lemma tspec_unwound {V W} ka hb (f : mclos E V W) self that e t e' :
    tspec (kcmp := kcmp) ka hb f true self that e (Unwound (t, e')) -> wfc (kcmp := kcmp) true (t_children t).
  Proof.
    unfold tspec. destruct (join kcmp ka hb f (listing self) (listing that) e) as [[o e1] [[k v]|]].
    - intros (t' & [= <- <-] & H & _). exact H.
    - intros (t' & [=] & _).
  Qed.
  Lemma ptspec_unwound {V W} rm (f : clos E W bool) (self : rtree K V) that e t e' :
    ptspec (kcmp := kcmp) rm f self that e (Unwound (t, e')) -> wfc (kcmp := kcmp) true (t_children t).
  Proof.
    unfold ptspec, pres. destruct (asks kcmp f (listing self) (listing that) e) as [[o e1] [k|]].
    - intros (t' & [= <- <-] & H & _). exact H.
    - intros (t' & [=] & _).
  Qed.
  Theorem C75_after_panic_partial {V W} (f : mclos E V V) (g : mclos E V W) (p : clos E W bool)
    (self that : rtree K V) (other : rtree K W) e t e' :
    Canon self -> Canon that -> WO other ->
    (ert_outer_combine_with kcmp strat f self that e = Unwound (t, e') \/
     ert_inner_combine_with kcmp strat g self other e = Unwound (t, e') \/
     ert_left_combine_with kcmp strat g self other e = Unwound (t, e') \/
     (t_is_empty self = false /\ ert_remove_prefix_with kcmp strat p self other e = Unwound (t, e')) \/
     (t_is_empty self = false /\ ert_retain_prefix_with kcmp strat p self other e = Unwound (t, e'))) ->
    sound_below_root t.
  Proof.
    intros Ca Cb Wo H. apply wfc_sound. destruct H as [H|[H|[H|[[Ne H]|[Ne H]]]]].
    - eapply (tspec_unwound true Some f). rewrite <- H. apply (eouter_spec L EQ); auto.
    - eapply (tspec_unwound false (fun _ => None) g). rewrite <- H. apply (einner_spec L EQ) with (qb := false); auto.
    - eapply (tspec_unwound true (fun _ => None) g). rewrite <- H. apply (eleft_spec L EQ) with (qb := false); auto.
    - eapply (ptspec_unwound true p). rewrite <- H. apply (eremove_spec L EQ) with (qb := false); auto.
    - eapply (ptspec_unwound false p). rewrite <- H. apply (eretain_spec L EQ) with (qb := false); auto.
  Qed.

  (** exactly when == still works: [t] is what a panic left, [c] any canonical tree that answers every get like [t].
      They are == exactly when the root of [t] has a value, or at least two children, or neither prefix nor children *)
  Theorem C75_eq_after_panic_exact {V W} (veqb : V -> V -> bool) (f : mclos E V V) (g : mclos E V W) (p : clos E W bool)
    (self that : rtree K V) (other : rtree K W) e t e' (c : rtree K V) :
    (forall x y, veqb x y = true <-> x = y) ->
    Canon self -> Canon that -> WO other ->
    (ert_outer_combine_with kcmp strat f self that e = Unwound (t, e') \/
     ert_inner_combine_with kcmp strat g self other e = Unwound (t, e') \/
     ert_left_combine_with kcmp strat g self other e = Unwound (t, e') \/
     (t_is_empty self = false /\ ert_remove_prefix_with kcmp strat p self other e = Unwound (t, e')) \/
     (t_is_empty self = false /\ ert_retain_prefix_with kcmp strat p self other e = Unwound (t, e'))) ->
    Canon c -> (forall k, rt_get kcmp c k = rt_get kcmp t k) ->
    (rt_eqb kcmp veqb t c = true <->
     t_value t <> None \/ 2 <= length (t_children t) \/ (t_prefix t = [] /\ t_children t = [])).
  Proof.
    intros Hv Ca Cb Wo H Cc G. destruct (C75_after_panic_partial f g p self that other e t e' Ca Cb Wo H) as [_ Wt].
    assert (Wc : wfc (kcmp := kcmp) true (t_children t)).
    { destruct H as [H|[H|[H|[[Ne H]|[Ne H]]]]].
      - eapply (tspec_unwound true Some f). rewrite <- H. apply (eouter_spec L EQ); auto.
      - eapply (tspec_unwound false (fun _ => None) g). rewrite <- H. apply (einner_spec L EQ) with (qb := false); auto.
      - eapply (tspec_unwound true (fun _ => None) g). rewrite <- H. apply (eleft_spec L EQ) with (qb := false); auto.
      - eapply (ptspec_unwound true p). rewrite <- H. apply (eremove_spec L EQ) with (qb := false); auto.
      - eapply (ptspec_unwound false p). rewrite <- H. apply (eretain_spec L EQ) with (qb := false); auto. }
    split.
    - intros Q. destruct t as [tp tv tc], c as [cp cv cc]. apply (rt_eqb_node EQ) in Q as (<- & Hvv & F).
      cbn [t_value t_children t_prefix]. destruct tv as [v|]; [left; discriminate|].
      destruct cv as [v|]; [discriminate|]. apply wf_node in Cc as [_ Cc]. destruct (Cc eq_refl) as [C1 C2].
      destruct F as [|x y l m _ F]; [right; right; split; [now apply C1|reflexivity]|].
      destruct F as [|x' y' l m _ F]; [now destruct (C2 eq_refl)|]. right; left. cbn [length]. lia.
    - intros Ok. apply (C47_eq_extensional L EQ); auto.
      destruct t as [tp tv tc]. cbn [t_value t_children t_prefix] in *. apply wf_node. split; [auto|]. intros _. split.
      + intros -> ->. destruct Ok as [Ok|[Ok|[Ok _]]]; [congruence|cbn in Ok; lia|auto].
      + intros ->. destruct Ok as [Ok|[Ok|[_ ->]]]; [congruence| |discriminate]. intros N. rewrite N in Ok. lia.
  Qed.

  (** ** C76 *)
  Definition prunes {V W} (rm : bool) (f : clos E W bool) (self : rtree K V) (that : rtree K W) (e : E)
    (r : done (rtree K V * E)) : Prop :=
    match asks kcmp f (listing self) (listing that) e with
    | (h, e', None) => exists t, r = Done (t, e') /\ Canon t /\ listing t = filter (selected kcmp rm h) (listing self)
    | (h, e', Some k) => exists t, r = Unwound (t, e') /\ WO t /\
        remains_prefix kcmp rm (lcp kcmp (t_prefix self) (t_prefix that)) self h k t
    end.
  Lemma prunes_intro {V W} rm (f : clos E W bool) (self : rtree K V) that e r :
    ptspec (kcmp := kcmp) rm f self that e r -> prunes rm f self that e r.
  Proof.
    unfold ptspec, pres, prunes. destruct (asks kcmp f (listing self) (listing that) e) as [[h e'] [k|]].
    - intros (t & H1 & H2 & H3). exists t. split; [auto|]. split; [|auto]. destruct t. apply wf_node. split; [eapply wfc_weaken; eauto|discriminate].
    - intros (t & H1 & H2 & H3 & _). eauto.
  Qed.
  Theorem C76_remove_prefix_with {V W} (f : clos E W bool) (self : rtree K V) (that : rtree K W) e :
    Canon self -> t_is_empty self = false -> WO that ->
    prunes true f self that e (ert_remove_prefix_with kcmp strat f self that e).
  Proof.
    intros Ca Ne Wb. apply prunes_intro. apply (eremove_spec L EQ) with (qb := false); auto.
  Qed.
  Theorem C76_retain_prefix_with {V W} (f : clos E W bool) (self : rtree K V) (that : rtree K W) e :
    Canon self -> t_is_empty self = false -> WO that ->
    prunes false f self that e (ert_retain_prefix_with kcmp strat f self that e).
  Proof.
    intros Ca Ne Wb. apply prunes_intro. apply (eretain_spec L EQ) with (qb := false); auto.
  Qed.
  (** The empty tree stays empty; the predicate is asked at most about the empty key. *)
  Theorem C76_empty_self {V W} (f : clos E W bool) (that : rtree K W) e : WO that ->
    let ask (r : done (rtree K V * E)) :=
      match that with
      | Node [] (Some w) _ => r = (let (e', c) := f e w in match c with Ret _ => Done (Node [] None [], e') | Throw => Unwound (Node [] None [], e') end)
      | _ => r = Done (Node [] None [], e)
      end in
    ask (ert_remove_prefix_with kcmp strat f (Node [] None []) that e) /\
    ask (ert_retain_prefix_with kcmp strat f (Node [] None []) that e).
  Proof.
    intros Wb. destruct that as [p w cb]. pose proof (wf_wfc _ _ Wb) as Cb. cbn [t_children] in Cb.
    assert (Nil : forall rec ta cs (e0 : E), wfc (kcmp := kcmp) false cs ->
      echildren_with (V := V) (W := W) kcmp strat rec ta false NoConverter [] cs e0 = Done ([], e0)).
    { intros rec ta cs e0 Cc.
      pose proof (pchildren_ok (V := V) L EQ ta f strat rec false [] cs (wfc_nil _) Cc) as H. 
      specialize (H ltac:(intros ? ? ? [])  e0). unfold pcres in H. cbn [flat_map] in H. rewrite asks_nil in H.
      destruct H as (l & H1 & H2 & H3). rewrite H1. f_equal. f_equal.
      destruct l as [|c l]; auto. exfalso.
      destruct (wfc_In _ _ c H2 (or_introl eq_refl)) as (P1 & P2 & P3).
      pose proof (canon_listing (S (t_size c)) c (Nat.lt_succ_diag_r _) P2 (P3 eq_refl)) as P4.
      cbn [flat_map] in H3. apply app_eq_nil in H3 as [H3 _]. auto. }
    unfold ert_remove_prefix_with, ert_retain_prefix_with. cbn [eremove_with eretain_with t_prefix t_value t_children common_prefix length].
    destruct p as [|x p].
    - cbn [common_prefix length Nat.eqb andb].
      destruct w as [w|]; cbn [ehit].
      + destruct (f e w) as [e' [[|]|]]; rewrite ?Nil by auto; auto.
      + rewrite !Nil by auto. auto.
    - cbn [Nat.eqb andb length].
      assert (Wb' : wfc (kcmp := kcmp) false [Node (x :: p) w cb]) by (apply wfc_single; auto; discriminate).
      rewrite (mat_short_ok (kcmp := kcmp) _ _ 0 Wb) by (cbn; lia). cbn [elift skipn t_prefix t_value t_children].
      rewrite !Nil by auto. auto.
  Qed.
End PropRadixEff.

(** C75 in full fails: after a caught panic the tree holds the key [1;2] only, like a fresh tree, but is
    not equal to it *)
Definition boom (e : nat) (v w : nat) : nat * nat * cres bool := (e + 1, v + w, if v =? 7 then Throw else Ret true).
Theorem C75_eq_after_panic_refuted : exists (self that t t' : rtree nat nat) e',
  Canon Nat.compare self /\ Canon Nat.compare that /\ Canon Nat.compare t' /\
  ert_outer_combine_with Nat.compare (fun _ _ => true) boom self that 0 = Unwound (t, e') /\
  rt_iter t = rt_iter t' /\ (forall k, rt_get Nat.compare t k = rt_get Nat.compare t' k) /\
  rt_eqb Nat.compare Nat.eqb t t' = false /\ rt_eqb Nat.compare Nat.eqb t t = true.
Proof.
  exists (Node [1] None [Node [2] (Some 4) []; Node [3] (Some 7) []]),
         (Node [1] None [Node [2] (Some 5) []; Node [3] (Some 1) []]),
         (Node [1] None [Node [2] (Some 9) []]), (Node [1; 2] (Some 9) []), 2.
  split; [repeat (constructor; cbn; auto; try discriminate)|].
  split; [repeat (constructor; cbn; auto; try discriminate)|].
  split; [repeat (constructor; cbn; auto; try discriminate)|].
  split; [reflexivity|]. split; [reflexivity|]. split; [|split; reflexivity].
  intros k. destruct k as [|a k]; [reflexivity|]. destruct k as [|b k].
  - destruct a as [|[|a]]; reflexivity.
  - destruct a as [|[|a]]; try reflexivity. destruct b as [|[|[|b]]]; try reflexivity. destruct k; reflexivity.
Qed.

(** ** concrete cases *)
(** a logging closure: the world is the list of the pairs it was called with *)
Definition logb (e : list (nat * nat)) (v w : nat) : list (nat * nat) * nat * cres bool :=
  (e ++ [(v, w)], v + w, if v =? 7 then Throw else Ret (negb (v =? 4))).
Definition tA : rtree nat nat := Node [1] (Some 3) [Node [2] (Some 4) [Node [5] (Some 6) []; Node [6] (Some 8) []]; Node [3; 3] (Some 5) []].
Definition tB : rtree nat nat := Node [1] (Some 30) [Node [2] (Some 40) [Node [6] (Some 80) []]; Node [3] (Some 50) [Node [3] (Some 51) []; Node [4] (Some 52) []]].
Definition tC : rtree nat nat := Node [1] (Some 3) [Node [2] (Some 4) []; Node [3] (Some 5) [Node [3] (Some 7) []]; Node [4] (Some 1) []].
Example w74_in : Canon Nat.compare tA /\ Canon Nat.compare tB /\ Canon Nat.compare tC.
Proof.
  unfold Canon, tA, tB, tC. cbn [wf fold_right t_prefix t_is_empty t_value t_children length].
  repeat match goal with
  | |- _ /\ _ => split
  | |- True => exact I
  | |- Forall _ [] => constructor
  | |- Forall _ (_ :: _) => constructor
  | |- StronglySorted _ [] => constructor
  | |- StronglySorted _ (_ :: _) => constructor
  | |- _ -> _ => intro
  | |- _ <> _ => discriminate
  | H : Some _ = None |- _ => discriminate H
  | H : _ :: _ = [] |- _ => discriminate H
  | |- _ => reflexivity
  end; auto.
Qed.
Example w74_outer : match ert_outer_combine_with Nat.compare (fun _ _ => true) logb tA tB [] with Done (t, e) => e = [(3, 30); (4, 40); (8, 80); (5, 51)] /\ listing t = [([1], 33); ([1;2;5], 6); ([1;2;6], 88); ([1;3], 50); ([1;3;3], 56); ([1;3;4], 52)] | _ => False end.
Proof. vm_compute. split; reflexivity. Qed.
Example w74_inner : match ert_inner_combine_with Nat.compare (fun _ _ => true) logb tA tB [] with Done (t, e) => e = [(3, 30); (4, 40); (8, 80); (5, 51)] /\ listing t = [([1], 33); ([1;2;6], 88); ([1;3;3], 56)] | _ => False end.
Proof. vm_compute. split; reflexivity. Qed.
Example w74_left_panic : match ert_left_combine_with Nat.compare (fun _ _ => true) logb tC tB [] with Unwound (t, e) => e = [(3, 30); (4, 40); (5, 50); (7, 51)] /\ listing t = [([1], 33)] | _ => False end.
Proof. vm_compute. split; reflexivity. Qed.
Definition askb (e : list nat) (w : nat) : list nat * cres bool := (e ++ [w], if w =? 51 then Throw else Ret (w =? 40)).
Example w76_remove : match ert_remove_prefix_with Nat.compare (fun _ _ => true) askb tA tB [] with Unwound (t, e) => e = [30; 40; 50; 51] /\ listing t = [([1], 3)] | _ => False end.
Proof. vm_compute. split; reflexivity. Qed.
Example w76_retain : match ert_retain_prefix_with Nat.compare (fun _ _ => true) askb tA (Node [1;2] (Some 40) [Node [3] (Some 51) []]) [] with Done (t, e) => e = [40] /\ listing t = [([1;2], 4); ([1;2;5], 6); ([1;2;6], 8)] | _ => False end.
Proof. vm_compute. split; reflexivity. Qed.
(** the predicate is asked about the empty key even if there is nothing to remove *)
Example w76_empty : ert_remove_prefix_with (V := nat) Nat.compare (fun _ _ => true) askb (Node [] None []) (Node [] (Some 9) []) [] =
  Done (Node [] None [], [9]).
Proof. reflexivity. Qed.

(** C75: after this panic the root has a value, and == still works *)
Example w75_exact : exists t e', ert_left_combine_with Nat.compare (fun _ _ => true) logb tC tB [] = Unwound (t, e') /\
  t_value t <> None /\ Canon Nat.compare (Node [1] (Some 33) []) /\
  (forall k, rt_get Nat.compare (Node [1] (Some 33) []) k = rt_get Nat.compare t k) /\
  rt_eqb Nat.compare Nat.eqb t (Node [1] (Some 33) []) = true.
Proof.
  exists (Node [1] (Some 33) []), [(3, 30); (4, 40); (5, 50); (7, 51)]. split; [vm_compute; reflexivity|]. split; [discriminate|].
  split; [repeat (constructor; cbn; auto; try discriminate)|]. split; [intros k; reflexivity|reflexivity].
Qed.

Print Assumptions C74_listing_is_iter.
Print Assumptions C74_outer_combine_with.
Print Assumptions C74_inner_combine_with.
Print Assumptions C74_left_combine_with.
Print Assumptions C75_after_panic_partial.
Print Assumptions C75_eq_after_panic_exact.
Print Assumptions C75_eq_after_panic_refuted.
Print Assumptions C76_remove_prefix_with.
Print Assumptions C76_retain_prefix_with.
Print Assumptions C76_empty_self.

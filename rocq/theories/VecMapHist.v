(** Histories of VecMap operations: a program with variables holding VecMaps. *)
From Verif Require Export VecMapSpec.

Section Hist.
  Context {K V : Type} (kcmp : K -> K -> comparison) (strat : nat -> nat -> bool).

  Section Cmd.
    (** [C X Y]: the type of closures from X to Y used by the program *)
    Context (C : Type -> Type -> Type).
    Inductive mjoin :=
    | JOuter (f : C (ojarg K V V) (option V))
    | JLeft (f : C (K * V * option V) (option V))
    | JRight (f : C (K * option V * V) (option V))
    | JInner (f : C (K * V * V) (option V)).
    (** The public API of VecMap; variables are numbered, [v] is the target. *)
    Inductive mcmd :=
    | MEmpty (v : nat)                            (* vec_map.rs:626, Default 195 *)
    | MSingle (v : nat) (p : K * V)               (* vec_map.rs:657 *)
    | MCollect (v : nat) (l : list (K * V))       (* FromIterator, vec_map.rs:243 *)
    | MFromBTree (v : nat) (l : {l : list (K * V) | keys_sorted kcmp l})  (* vec_map.rs:249 *)
    | MDeserialize (v : nat) (l : list (K * V))   (* serde visit_map, vec_map.rs:817 *)
    | MMacro (v : nat) (l : list (K * V))         (* vecmap!, macros.rs:16 *)
    | MClone (v w : nat)                          (* v := w.clone(), vec_map.rs:145 *)
    | MInsert (v : nat) (k : K) (x : V)           (* vec_map.rs:663 *)
    | MGet (v : nat) (k : K)                      (* vec_map.rs:47 *)
    | MGetMut (v : nat) (k : K) (g : V -> V)      (* vec_map.rs:758 *)
    | MRetain (v : nat) (f : K * V -> bool)       (* vec_map.rs:642 *)
    | MMapValues (v w : nat) (f : V -> V)         (* v := w.clone().map_values(f), vec_map.rs:608 *)
    | MExtend (v : nat) (l : list (K * V))        (* vec_map.rs:255 *)
    | MJoin (j : mjoin) (v a b : nat)             (* v := a.outer_join(&b, f) etc, vec_map.rs:61-115 *)
    | MJoinWith (j : mjoin) (v w : nat)           (* v.outer_join_with(&w, f) etc, vec_map.rs:677-727 *)
    | MCombineWith (f : C (V * V) V) (v w : nat)  (* v.combine_with(w.clone(), f), vec_map.rs:737 *)
    | MMergeWith (v w : nat).                     (* v.merge_with(w.clone()), vec_map.rs:731 *)
  End Cmd.
  Inductive mout := MUnit | MVal (o : option V) | MBool (b : bool) | MCaughtPanic.

  Section Run.
    Context {C : Type -> Type -> Type} {E : Type} (interp : forall X Y, C X Y -> clos E X Y).
    Definition pure_join (j : mjoin C) : list (K * V) -> list (K * V) -> E -> done (list (K * V) * E) :=
      match j with
      | JOuter _ f => vmap_outer_join kcmp strat (interp _ _ f)
      | JLeft _ f => vmap_left_join kcmp strat (interp _ _ f)
      | JRight _ f => vmap_right_join kcmp strat (interp _ _ f)
      | JInner _ f => vmap_inner_join kcmp strat (interp _ _ f)
      end.
    Definition with_join (j : mjoin C) : list (K * V) -> list (K * V) -> E -> done (list (K * V) * E) :=
      match j with
      | JOuter _ f => vmap_outer_join_with kcmp strat (interp _ _ f)
      | JLeft _ f => vmap_left_join_with kcmp strat (interp _ _ f)
      | JRight _ f => vmap_right_join_with kcmp strat (interp _ _ f)
      | JInner _ f => vmap_inner_join_with kcmp strat (interp _ _ f)
      end.
    Definition mst : Type := (nat -> list (K * V)) * E.

    (** A panic raised by a user closure is caught by the caller (catch_unwind), who goes on with
        the map left behind. [None]: any other panic (never happens). *)
    Definition mstep (s : mst) (c : mcmd C) : option (mst * mout) :=
      let (st, e) := s in
      let set v x := Some ((upd st v x, e), MUnit) in
      let in_place v (d : done (list (K * V) * E)) :=
        match d with
        | Done (x, e') => Some ((upd st v x, e'), MUnit)
        | Unwound (x, e') => Some ((upd st v x, e'), MCaughtPanic)
        | DoneNoFuel => None
        end in
      match c with
      | MEmpty _ v => set v vmap_empty
      | MSingle _ v p => set v (vmap_single p)
      | MCollect _ v l => match vmap_from_iter kcmp l with Some x => set v x | None => None end
      | MFromBTree _ v l => set v (vmap_from_btreemap (proj1_sig l))
      | MDeserialize _ v l => set v (vmap_visit_map kcmp l)
      | MMacro _ v l => match vecmap_macro kcmp l with Ok x => set v x | _ => None end
      | MClone _ v w => set v (st w)
      | MInsert _ v k x =>
          match vmap_insert kcmp (st v) k x with
          | Ok (m, o) => Some ((upd st v m, e), MVal o)
          | _ => None
          end
      | MGet _ v k => Some (s, MVal (vmap_get kcmp (st v) k))
      | MGetMut _ v k g => let (m, b) := vmap_get_mut kcmp (st v) k g in Some ((upd st v m, e), MBool b)
      | MRetain _ v f => set v (vmap_retain (st v) f)
      | MMapValues _ v w f => set v (vmap_map_values f (st w))
      | MExtend _ v l =>
          match vmap_extend kcmp strat (st v) l e with Some d => in_place v d | None => None end
      | MJoin _ j v a b =>
          match pure_join j (st a) (st b) e with
          | Done (x, e') => Some ((upd st v x, e'), MUnit)
          | Unwound (_, e') => Some ((st, e'), MCaughtPanic)
          | DoneNoFuel => None
          end
      | MJoinWith _ j v w => in_place v (with_join j (st v) (st w) e)
      | MCombineWith _ f v w => in_place v (vmap_combine_with kcmp strat (interp _ _ f) (st v) (st w) e)
      | MMergeWith _ v w => in_place v (vmap_merge_with kcmp strat (st v) (st w) e)
      end.
    Fixpoint mrun (s : mst) (cs : list (mcmd C)) : option (mst * list mout) :=
      match cs with
      | [] => Some (s, [])
      | c :: cs' =>
          match mstep s c with
          | None => None
          | Some (s1, o) =>
              match mrun s1 cs' with
              | None => None
              | Some (s2, os) => Some (s2, o :: os)
              end
          end
      end.
  End Run.
  Definition minit : nat -> list (K * V) := fun _ => [].

  (** ** The abstract machine: every variable is a finite map, given by the entry stored for each
      key; closures are functions. *)
  Definition fn (X Y : Type) : Type := X -> Y.
  Definition amap := K -> option (K * V).
  (** joining the entries stored for one key *)
  Definition ajoin (j : mjoin fn) (x y : option (K * V)) : option (K * V) :=
    match j with
    | JOuter _ f =>
        match x, y with
        | Some (k, v), Some (_, w) => option_map (pair k) (f (OJBoth k v w))
        | Some (k, v), None => option_map (pair k) (f (OJLeft k v))
        | None, Some (k, w) => option_map (pair k) (f (OJRight k w))
        | None, None => None
        end
    | JLeft _ f =>
        match x with
        | Some (k, v) => option_map (pair k) (f (k, v, option_map snd y))
        | None => None
        end
    | JRight _ f =>
        match y with
        | Some (k, w) =>
            let k' := match x with Some (k', _) => k' | None => k end in
            option_map (pair k') (f (k', option_map snd x, w))
        | None => None
        end
    | JInner _ f =>
        match x, y with
        | Some (k, v), Some (_, w) => option_map (pair k) (f (k, v, w))
        | _, _ => None
        end
    end.
  Definition acombine (f : V * V -> V) (x y : option (K * V)) : option (K * V) :=
    match x, y with
    | Some (k, v), Some (_, w) => Some (k, f (v, w))
    | Some p, None => Some p
    | None, o => o
    end.
  Definition amstep (st : nat -> amap) (c : mcmd fn) : (nat -> amap) * mout :=
    match c with
    | MEmpty _ v => (upd st v (fun _ => None), MUnit)
    | MSingle _ v p => (upd st v (fun k => if eqb_of kcmp k (fst p) then Some p else None), MUnit)
    | MCollect _ v l | MMacro _ v l => (upd st v (fun k => entry kcmp k (rev l)), MUnit)
    | MFromBTree _ v l => (upd st v (fun k => entry kcmp k (proj1_sig l)), MUnit)
    | MDeserialize _ v l => (upd st v (fun k => entry kcmp k l), MUnit)
    | MClone _ v w => (upd st v (st w), MUnit)
    | MInsert _ v k x =>
        (upd st v (fun k' => if eqb_of kcmp k' k then Some (k, x) else st v k'),
         MVal (option_map snd (st v k)))
    | MGet _ v k => (st, MVal (option_map snd (st v k)))
    | MGetMut _ v k g =>
        (upd st v (fun k' => if eqb_of kcmp k' k then option_map (fun p => (fst p, g (snd p))) (st v k)
                             else st v k'),
         MBool (match st v k with Some _ => true | None => false end))
    | MRetain _ v f =>
        (upd st v (fun k => match st v k with Some p => if f p then Some p else None | None => None end),
         MUnit)
    | MMapValues _ v w f => (upd st v (fun k => option_map (fun p => (fst p, f (snd p))) (st w k)), MUnit)
    | MExtend _ v l => (upd st v (fun k => acombine snd (st v k) (entry kcmp k (rev l))), MUnit)
    | MJoin _ j v a b => (upd st v (fun k => ajoin j (st a k) (st b k)), MUnit)
    | MJoinWith _ j v w => (upd st v (fun k => ajoin j (st v k) (st w k)), MUnit)
    | MCombineWith _ f v w => (upd st v (fun k => acombine f (st v k) (st w k)), MUnit)
    | MMergeWith _ v w => (upd st v (fun k => acombine snd (st v k) (st w k)), MUnit)
    end.
  Fixpoint amrun (st : nat -> amap) (cs : list (mcmd fn)) : (nat -> amap) * list mout :=
    match cs with
    | [] => (st, [])
    | c :: cs' => let (st1, o) := amstep st c in
                  let (st2, os) := amrun st1 cs' in (st2, o :: os)
    end.
  (** running a program of pure functions on the implementation *)
  Definition pure_interp (X Y : Type) (f : fn X Y) : clos unit X Y := pure_clos f.
End Hist.
Arguments JOuter {K V C}. Arguments JLeft {K V C}. Arguments JRight {K V C}. Arguments JInner {K V C}.
Arguments MEmpty {K V kcmp C}. Arguments MSingle {K V kcmp C}. Arguments MCollect {K V kcmp C}.
Arguments MFromBTree {K V kcmp C}. Arguments MDeserialize {K V kcmp C}. Arguments MMacro {K V kcmp C}.
Arguments MClone {K V kcmp C}. Arguments MInsert {K V kcmp C}. Arguments MGet {K V kcmp C}.
Arguments MGetMut {K V kcmp C}. Arguments MRetain {K V kcmp C}. Arguments MMapValues {K V kcmp C}.
Arguments MExtend {K V kcmp C}. Arguments MJoin {K V kcmp C}. Arguments MJoinWith {K V kcmp C}.
Arguments MCombineWith {K V kcmp C}. Arguments MMergeWith {K V kcmp C}.
Arguments MUnit {V}. Arguments MVal {V}. Arguments MBool {V}. Arguments MCaughtPanic {V}.

Section HistFacts.
  Context {K V : Type} {kcmp : K -> K -> comparison} (L : OrdLaws kcmp) (strat : nat -> nat -> bool).

  Definition all_ksorted (st : nat -> list (K * V)) : Prop := forall v, keys_sorted kcmp (st v).
  Lemma upd_ksorted st v x : all_ksorted st -> keys_sorted kcmp x -> all_ksorted (upd st v x).
  Proof. intros H Hx w. unfold upd. destruct (w =? v); auto. Qed.

  Definition ok_done {E} (a b : list (K * V)) (d : done (list (K * V) * E)) : Prop :=
    exists r e', (d = Done (r, e') \/ d = Unwound (r, e')) /\ keys_sorted kcmp r /\
      forall p, In p r -> mem kcmp (fst p) (map fst a) \/ mem kcmp (fst p) (map fst b).

  Section General.
    Context {C : Type -> Type -> Type} {E : Type} (interp : forall X Y, C X Y -> clos E X Y).
    Lemma pure_join_valid j a b e : keys_sorted kcmp a -> keys_sorted kcmp b ->
      ok_done a b (pure_join kcmp strat interp j a b e).
    Proof.
      intros Sa Sb. destruct j; cbn [pure_join].
      - now apply (vs_join_valid L strat (OuterJoinOp_v kcmp) _ _ _ OuterJoinOp_v_act).
      - now apply (vs_join_valid L strat (LeftJoinOp_v kcmp) _ _ _ LeftJoinOp_v_act).
      - now apply (vs_join_valid L strat (RightJoinOp_v kcmp) _ _ _ RightJoinOp_v_act).
      - now apply (vs_join_valid L strat (InnerJoinOp_v kcmp) _ _ _ InnerJoinOp_v_act).
    Qed.
    Lemma with_join_valid j a b e : keys_sorted kcmp a -> keys_sorted kcmp b ->
      ok_done a b (with_join kcmp strat interp j a b e).
    Proof.
      intros Sa Sb. destruct j; cbn [with_join].
      - now apply (ipr_join_valid L strat (OuterJoinOp_i kcmp) _ _ _ OuterJoinOp_i_act).
      - now apply (ipr_join_valid L strat (LeftJoinOp_i kcmp) _ _ _ LeftJoinOp_i_act).
      - now apply (ipr_join_valid L strat (RightJoinOp_i kcmp) _ _ _ RightJoinOp_i_act).
      - now apply (ipr_join_valid L strat (InnerJoinOp_i kcmp) _ _ _ InnerJoinOp_i_act).
    Qed.

    Lemma mstep_sorted st e (c : mcmd kcmp C) : all_ksorted st ->
      exists st' e' o, mstep kcmp strat interp (st, e) c = Some ((st', e'), o) /\ all_ksorted st'.
    Proof.
      intros H.
      assert (Set_ : forall v x (o : mout (V := V)), keys_sorted kcmp x ->
        exists st' e' o', Some ((upd st v x, e), o) = Some ((st', e'), o') /\ all_ksorted st')
        by (intros; eexists; eexists; eexists; split; [reflexivity|]; now apply upd_ksorted).
      assert (InP : forall v a b (d : done (list (K * V) * E)), ok_done a b d ->
        exists st' e' (o' : mout (V := V)), match d with
          | Done (x, e') => Some ((upd st v x, e'), MUnit)
          | Unwound (x, e') => Some ((upd st v x, e'), MCaughtPanic)
          | DoneNoFuel => None
          end = Some ((st', e'), o') /\ all_ksorted st').
      { intros v a b d (r & e' & [-> | ->] & S & _); eexists; eexists; eexists;
          (split; [reflexivity|]); now apply upd_ksorted. }
      destruct c; cbn [mstep].
      - apply Set_, sorted_nil.
      - apply Set_. apply sorted_single.
      - destruct (mfrom_iter_spec L l) as (r & -> & S & _). now apply Set_.
      - apply Set_. exact (proj2_sig l).
      - apply Set_. apply (visit_map_spec L).
      - unfold vecmap_macro. destruct (minsert_all_spec L l [] sorted_nil) as (r & -> & S & _).
        now apply Set_.
      - now apply Set_.
      - destruct (minsert_spec L (st v) k x (H v)) as (m & -> & S & _). now apply Set_.
      - eexists. eexists. eexists. split; [reflexivity|assumption].
      - destruct (get_mut_spec L (st v) k g (H v)) as (m & -> & S & _). now apply Set_.
      - apply Set_. now apply (retain_spec L).
      - apply Set_. now apply (map_values_spec (kcmp := kcmp)).
      - unfold vmap_extend. destruct (mfrom_iter_spec L l) as (r & -> & S & _).
        eapply InP. now apply (combine_valid L strat).
      - destruct (pure_join_valid j (st a) (st b) e (H a) (H b)) as (r & e' & [Q|Q] & S & _); rewrite Q.
        + eexists. eexists. eexists. split; [reflexivity|]. now apply upd_ksorted.
        + eexists. eexists. eexists. split; [reflexivity|assumption].
      - eapply InP. now apply with_join_valid.
      - eapply InP. now apply (combine_valid L strat).
      - eapply InP. now apply (combine_valid L strat).
    Qed.
    Theorem mrun_sorted (cs : list (mcmd kcmp C)) : forall st e, all_ksorted st ->
      exists st' e' os, mrun kcmp strat interp (st, e) cs = Some ((st', e'), os) /\ all_ksorted st'.
    Proof.
      induction cs as [|c cs IH]; intros st e H; cbn [mrun]; [eauto|].
      destruct (mstep_sorted st e c H) as (st1 & e1 & o & -> & H1).
      destruct (IH st1 e1 H1) as (st2 & e2 & os & -> & H2). eauto.
    Qed.
  End General.
  Lemma minit_sorted : all_ksorted minit.
  Proof. intros v. apply sorted_nil. Qed.

  (** *** pure joins *)
  Section Pure.


    Lemma join_ajoin j a b : keys_sorted kcmp a -> keys_sorted kcmp b ->
      exists r, pure_join kcmp strat pure_interp j a b tt = Done (r, tt) /\
        with_join kcmp strat pure_interp j a b tt = Done (r, tt) /\ keys_sorted kcmp r /\
        forall k, entry kcmp k r = ajoin j (entry kcmp k a) (entry kcmp k b) :> option (K * V).
    Proof.
      intros Sa Sb.
      destruct j as [f|f|f|f]; cbn [pure_join with_join];
        unfold vmap_outer_join, vmap_left_join, vmap_right_join, vmap_inner_join,
          vmap_outer_join_with, vmap_left_join_with, vmap_right_join_with, vmap_inner_join_with;
        unfold pure_interp; eexists.
      - split; [|split; [|split]].
        + rewrite (vs_join_total L strat (OuterJoinOp_v kcmp) _ _ _ OuterJoinOp_v_act
            (fun _ _ => eq_refl) (fun _ _ => eq_refl) _ _ _ a b tt (pure_total f)) by assumption.
          now rewrite fold_const.
        + rewrite (ipr_join_total L strat (OuterJoinOp_i kcmp) _ _ _ OuterJoinOp_i_act
            (fun _ _ => eq_refl) (fun _ _ => eq_refl) _ _ _ a b tt (pure_total f)) by assumption.
          now rewrite fold_const.
        + now apply (jref_sorted L).
        + intros k. rewrite (jref_entry L) by assumption.
          destruct (entry kcmp k a) as [[? ?]|], (entry kcmp k b) as [[? ?]|]; reflexivity.
      - split; [|split; [|split]].
        + rewrite (vs_join_total L strat (LeftJoinOp_v kcmp) _ _ _ LeftJoinOp_v_act
            (fun _ _ => eq_refl) (fun _ _ => eq_refl) _ _ _ a b tt (pure_total f)) by assumption.
          now rewrite fold_const.
        + rewrite (ipr_join_total L strat (LeftJoinOp_i kcmp) _ _ _ LeftJoinOp_i_act
            (fun _ _ => eq_refl) (fun _ _ => eq_refl) _ _ _ a b tt (pure_total f)) by assumption.
          now rewrite fold_const.
        + now apply (jref_sorted L).
        + intros k. rewrite (jref_entry L) by assumption.
          destruct (entry kcmp k a) as [[? ?]|], (entry kcmp k b) as [[? ?]|]; reflexivity.
      - split; [|split; [|split]].
        + rewrite (vs_join_total L strat (RightJoinOp_v kcmp) _ _ _ RightJoinOp_v_act
            (fun _ _ => eq_refl) (fun _ _ => eq_refl) _ _ _ a b tt (pure_total f)) by assumption.
          now rewrite fold_const.
        + rewrite (ipr_join_total L strat (RightJoinOp_i kcmp) _ _ _ RightJoinOp_i_act
            (fun _ _ => eq_refl) (fun _ _ => eq_refl) _ _ _ a b tt (pure_total f)) by assumption.
          now rewrite fold_const.
        + now apply (jref_sorted L).
        + intros k. rewrite (jref_entry L) by assumption.
          destruct (entry kcmp k a) as [[? ?]|], (entry kcmp k b) as [[? ?]|]; reflexivity.
      - split; [|split; [|split]].
        + rewrite (vs_join_total L strat (InnerJoinOp_v kcmp) _ _ _ InnerJoinOp_v_act
            (fun _ _ => eq_refl) (fun _ _ => eq_refl) _ _ _ a b tt (pure_total f)) by assumption.
          now rewrite fold_const.
        + rewrite (ipr_join_total L strat (InnerJoinOp_i kcmp) _ _ _ InnerJoinOp_i_act
            (fun _ _ => eq_refl) (fun _ _ => eq_refl) _ _ _ a b tt (pure_total f)) by assumption.
          now rewrite fold_const.
        + now apply (jref_sorted L).
        + intros k. rewrite (jref_entry L) by assumption.
          destruct (entry kcmp k a) as [[? ?]|], (entry kcmp k b) as [[? ?]|]; reflexivity.
    Qed.
  End Pure.
  Lemma fold_cu_const {E} (l : list (ojarg K V V)) (e : E) : fold_left (cu (fun e _ => e)) l e = e.
  Proof. induction l as [|[]]; auto. Qed.
  Lemma combine_acombine {E} (g : V * V -> V) a b (e : E) : keys_sorted kcmp a -> keys_sorted kcmp b ->
    exists r, vmap_combine_with kcmp strat (pure_clos g) a b e = Done (r, e) /\ keys_sorted kcmp r /\
      forall k, entry kcmp k r = acombine g (entry kcmp k a) (entry kcmp k b).
  Proof.
    intros Sa Sb. eexists. split; [|split].
    - rewrite (combine_total L strat _ _ _ a b e (pure_total g)) by assumption.
      now rewrite fold_cu_const.
    - now apply (jref_sorted L).
    - intros k. rewrite (jref_entry L) by assumption.
      destruct (entry kcmp k a) as [[? ?]|], (entry kcmp k b) as [[? ?]|]; reflexivity.
  Qed.

  Definition mabs_ok (st : nat -> list (K * V)) (ast : nat -> amap) : Prop :=
    forall v k, entry kcmp k (st v) = ast v k.
  Lemma mabs_upd st ast v l p :
    mabs_ok st ast -> (forall k, entry kcmp k l = p k) -> mabs_ok (upd st v l) (upd ast v p).
  Proof. intros H Hp w k. unfold upd. destruct (w =? v); [apply Hp|apply H]. Qed.

  Lemma mstep_refines st ast (c : mcmd kcmp fn) : all_ksorted st -> mabs_ok st ast ->
    exists st', mstep kcmp strat pure_interp (st, tt) c = Some ((st', tt), snd (amstep kcmp ast c)) /\
      all_ksorted st' /\ mabs_ok st' (fst (amstep kcmp ast c)).
  Proof.
    intros H A.
    assert (Go : forall v l p (o o' : mout (V := V)), o = o' -> keys_sorted kcmp l -> (forall k, entry kcmp k l = p k) ->
      exists st', Some ((upd st v l, tt), o) = Some ((st', tt), o') /\ all_ksorted st' /\ mabs_ok st' (upd ast v p)).
    { intros v l p o o' -> S Hp. eexists. split; [reflexivity|]. split; [now apply upd_ksorted|now apply mabs_upd]. }
    destruct c; cbn [mstep amstep fst snd].
    - apply Go; auto. apply sorted_nil.
    - apply Go; [reflexivity|apply sorted_single|]. intros k. unfold entry. cbn.
      destruct (eqb_of kcmp k (fst p)); auto.
    - destruct (mfrom_iter_spec L l) as (r & -> & S & F). now apply Go.
    - apply Go; auto. exact (proj2_sig l).
    - destruct (visit_map_spec L l) as (S & F). now apply Go.
    - unfold vecmap_macro. destruct (minsert_all_spec L l [] sorted_nil) as (r & -> & S & F).
      apply Go; auto. intros k. rewrite F. now destruct (entry kcmp k (rev l)).
    - apply Go; auto.
    - destruct (minsert_spec L (st v) k x (H v)) as (m & -> & S & F). apply Go; auto.
      + now rewrite lookup_entry, A.
      + intros k'. now rewrite F, A.
    - exists st. rewrite (get_spec L) by apply H. rewrite lookup_entry, A. auto.
    - destruct (get_mut_spec L (st v) k g (H v)) as (m & -> & S & F). apply Go; auto.
      + now rewrite A.
      + intros k'. now rewrite F, !A.
    - destruct (retain_spec L (st v) f (H v)) as (S & F). apply Go; auto. intros k. now rewrite F, A.
    - destruct (map_values_spec (kcmp := kcmp) f (st w) (H w)) as (S & F). apply Go; auto. intros k. now rewrite F, A.
    - unfold vmap_extend. destruct (mfrom_iter_spec L l) as (r & -> & S & F).
      destruct (combine_acombine snd (st v) r tt (H v) S) as (m & Q & Sm & Fm).
      unfold vmap_merge_with. rewrite Q. apply Go; auto. intros k. now rewrite Fm, F, A.
    - destruct (join_ajoin j (st a) (st b) (H a) (H b)) as (r & -> & _ & S & F). apply Go; auto.
      intros k. now rewrite F, !A.
    - destruct (join_ajoin j (st v) (st w) (H v) (H w)) as (r & _ & -> & S & F). apply Go; auto.
      intros k. now rewrite F, !A.
    - unfold pure_interp. destruct (combine_acombine f (st v) (st w) tt (H v) (H w)) as (m & Q & Sm & Fm).
      rewrite Q. apply Go; auto. intros k. now rewrite Fm, !A.
    - destruct (combine_acombine snd (st v) (st w) tt (H v) (H w)) as (m & Q & Sm & Fm).
      unfold vmap_merge_with. rewrite Q. apply Go; auto. intros k. now rewrite Fm, !A.
  Qed.
  Theorem mrun_refines (cs : list (mcmd kcmp fn)) : forall st ast, all_ksorted st -> mabs_ok st ast ->
    exists st', mrun kcmp strat pure_interp (st, tt) cs = Some ((st', tt), snd (amrun kcmp ast cs)) /\
      all_ksorted st' /\ mabs_ok st' (fst (amrun kcmp ast cs)).
  Proof.
    induction cs as [|c cs IH]; intros st ast H A; cbn [mrun amrun]; [exists st; auto|].
    destruct (mstep_refines st ast c H A) as (st1 & -> & H1 & A1).
    destruct (amstep kcmp ast c) as [ast1 o]. cbn [fst snd] in *.
    destruct (IH st1 ast1 H1 A1) as (st2 & -> & H2 & A2).
    destruct (amrun kcmp ast1 cs) as [ast2 os]. cbn [fst snd] in *. exists st2. auto.
  Qed.
End HistFacts.

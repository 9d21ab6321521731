(** Property C108: joins of BTreeMaps with closures that have effects and may panic. *)
From Verif Require Import VecMapSpec PropMap PropBTree BTreeEffModel.

(** *** Specification *)
(** A join does one job per key, one after the other, until one panics. A job gets the world and the
    entry that the map has at its key; it returns the world, the entry the map has then, and whether
    it returned (false: it panicked). *)
Definition job (E K V : Type) : Type := K * (E -> option (K * V) -> E * option (K * V) * bool).
(** the jobs done in order on a mapping from keys to entries *)
Fixpoint perform {E K V} (kcmp : K -> K -> comparison) (jobs : list (job E K V)) (s : K -> option (K * V)) (e : E)
  : (K -> option (K * V)) * E * bool :=
  match jobs with
  | [] => (s, e, true)
  | (k, j) :: jobs' =>
      let '(e', o, ok) := j e (s k) in
      let s' := fun q => match kcmp q k with Eq => o | _ => s q end in
      if ok then perform kcmp jobs' s' e' else (s', e', false)
  end.

(** call [f]: its value becomes the entry of k; without one there is no entry *)
Definition fresh {E K R X} (f : clos E X (option R)) (x : X) (k : K) : job E K R :=
  (k, fun e _ => match f e x with
                 | (e', Ret (Some r)) => (e', Some (k, r), true)
                 | (e', Ret None) => (e', None, true)
                 | (e', Throw) => (e', None, false)
                 end).
(** what a closure that gets [&mut V] does to an entry: the value it leaves behind stays, unless it
    returns false *)
Definition adjust {E K V X} (f : kmclos E K V X) (k : K) (x : X) (e : E) (p : K * V) : E * option (K * V) * bool :=
  let '(e', v', r) := f e k (snd p) x in
  match r with
  | Ret true => (e', Some (fst p, v'), true)
  | Ret false => (e', None, true)
  | Throw => (e', Some (fst p, v'), false)
  end.
(** for keys with an entry only *)
Definition visit {E K V X} (f : kmclos E K V X) (x : X) (k : K) : job E K V :=
  (k, fun e o => match o with Some p => adjust f k x e p | None => (e, None, true) end).
Definition discard {E K V} (k : K) : job E K V := (k, fun e _ => (e, None, true)).

Section Jobs.
  Context {K V W E : Type} (kcmp : K -> K -> comparison) (a : list (K * V)) (b : list (K * W)).
  (** the value of a map at a key, by the specification of maps *)
  Definition val {X} (m : list (K * X)) (k : K) : option X := option_map snd (entry kcmp k m).
  Definition absent {X Y} (m : list (K * X)) (p : K * Y) : bool :=
    match entry kcmp (fst p) m with None => true | Some _ => false end.

  Definition outer_jobs {R} (f : clos E (ojarg K V W) (option R)) : list (job E K R) :=
    map (fun p => fresh f (match val b (fst p) with Some w => OJBoth (fst p) (snd p) w | None => OJLeft (fst p) (snd p) end)
                        (fst p)) a
    ++ map (fun p => fresh f (OJRight (fst p) (snd p)) (fst p)) (filter (absent a) b).
  Definition left_jobs {R} (f : clos E (K * V * option W) (option R)) : list (job E K R) :=
    map (fun p => fresh f (fst p, snd p, val b (fst p)) (fst p)) a.
  Definition right_jobs {R} (f : clos E (K * option V * W) (option R)) : list (job E K R) :=
    map (fun p => fresh f (fst p, val a (fst p), snd p) (fst p)) b.
  (** inner_join runs over the entries of [b] *)
  Definition inner_jobs {R} (f : clos E (K * V * W) (option R)) : list (job E K R) :=
    map (fun p => match val a (fst p) with Some v => fresh f (fst p, v, snd p) (fst p) | None => discard (fst p) end) b.

  Definition inner_with_jobs (f : kmclos E K V W) : list (job E K V) :=
    map (fun p => match val b (fst p) with Some w => visit f w (fst p) | None => discard (fst p) end) a.
  Definition left_with_jobs (f : kmclos E K V (option W)) : list (job E K V) :=
    map (fun p => visit f (val b (fst p)) (fst p)) a.
  (** keys only in [b] are asked for, but never added *)
  Definition right_with_jobs (fs : kmclos E K V W) (fn : clos E (K * W) bool) : list (job E K V) :=
    map (B := job E K V) (fun p => (fst p, fun e o =>
      match o with
      | Some q => adjust fs (fst p) (snd p) e q
      | None => match fn e p with (e', Ret _) => (e', None, true) | (e', Throw) => (e', None, false) end
      end)) b.
  (** first the keys of [b], then the keys only in [a] *)
  Definition outer_with_jobs (l : kmclos E K V (option W)) (r : clos E (K * W) (option V)) : list (job E K V) :=
    map (B := job E K V) (fun p => (fst p, fun e o =>
      match o with
      | Some q => adjust l (fst p) (Some (snd p)) e q
      | None => match r e p with
                | (e', Ret (Some v)) => (e', Some (fst p, v), true)
                | (e', Ret None) => (e', None, true)
                | (e', Throw) => (e', None, false)
                end
      end)) b
    ++ map (fun p => visit l None (fst p)) (filter (absent b) a).
End Jobs.

(** the map [r] holds the mapping [s] *)
Definition is_map {K V} (kcmp : K -> K -> comparison) (r : list (K * V)) (s : K -> option (K * V)) : Prop :=
  keys_sorted kcmp r /\ forall k, entry kcmp k r = s k.
(** an in-place join: the map then holds what the jobs done so far made of it *)
Definition does {K V E} (kcmp : K -> K -> comparison) (out : done (list (K * V) * E))
  (spec : (K -> option (K * V)) * E * bool) : Prop :=
  let '(s, e', ok) := spec in exists r, out = (if ok then Done (r, e') else Unwound (r, e')) /\ is_map kcmp r s.
(** a pure join: a panic leaves nothing but the world *)
Definition makes {K V E} (kcmp : K -> K -> comparison) (out : done (list (K * V) * E))
  (spec : (K -> option (K * V)) * E * bool) : Prop :=
  let '(s, e', ok) := spec in
  if ok then exists r, out = Done (r, e') /\ is_map kcmp r s else exists r, out = Unwound (r, e').

(** *** Facts *)
Section Facts.
  Context {K : Type} {kcmp : K -> K -> comparison} (L : OrdLaws kcmp) {E : Type}.

  Definition upd {V} (k : K) (o : option (K * V)) (s : K -> option (K * V)) : K -> option (K * V) :=
    fun q => match kcmp q k with Eq => o | _ => s q end.

  Definition same {V} (x y : (K -> option (K * V)) * E * bool) : Prop :=
    (forall q, fst (fst x) q = fst (fst y) q) /\ snd (fst x) = snd (fst y) /\ snd x = snd y.
  Lemma same_refl {V} (x : (K -> option (K * V)) * E * bool) : same x x.
  Proof. repeat split. Qed.
  Lemma same_trans {V} (x y z : (K -> option (K * V)) * E * bool) : same x y -> same y z -> same x z.
  Proof. intros (A1 & A2 & A3) (B1 & B2 & B3). split; [|split]; [intros q; now rewrite A1|congruence..]. Qed.
  Lemma same_sym {V} (x y : (K -> option (K * V)) * E * bool) : same x y -> same y x.
  Proof. intros (A1 & A2 & A3). split; [|split]; auto. Qed.
  Lemma does_same {V} out (x y : (K -> option (K * V)) * E * bool) : same x y -> does kcmp out x -> does kcmp out y.
  Proof.
    destruct x as [[s e] ok], y as [[s2 e2] ok2]. intros (H1 & H2 & H3). cbn [fst snd] in *. subst.
    intros (r & Q & S & H). exists r. split; [exact Q|]. split; [exact S|]. intros k. now rewrite H.
  Qed.
  Lemma does_makes {V} out (x : (K -> option (K * V)) * E * bool) : does kcmp out x -> makes kcmp out x.
  Proof. destruct x as [[s e] [|]]; cbn [does makes]; [auto|]. intros (r & Q & _). eauto. Qed.

  Lemma perform_ext {V} (jobs : list (job E K V)) : forall s s' e, (forall q, s q = s' q) ->
    same (perform kcmp jobs s e) (perform kcmp jobs s' e).
  Proof.
    induction jobs as [|[k j] jobs IH]; intros s s' e H; cbn [perform]; [split; [exact H|auto]|].
    rewrite H. destruct (j e (s' k)) as [[e' o] ok].
    assert (H2 : forall q, match kcmp q k with Eq => o | _ => s q end = match kcmp q k with Eq => o | _ => s' q end)
      by (intros q; now rewrite H).
    destruct ok; [now apply IH|]. split; [exact H2|auto].
  Qed.
  Lemma perform_app {V} (j1 j2 : list (job E K V)) : forall s e,
    perform kcmp (j1 ++ j2) s e =
    let '(s1, e1, ok) := perform kcmp j1 s e in if ok then perform kcmp j2 s1 e1 else (s1, e1, false).
  Proof.
    induction j1 as [|[k j] j1 IH]; intros s e; cbn [perform app]; [reflexivity|].
    destruct (j e (s k)) as [[e' o] [|]]; [apply IH|reflexivity].
  Qed.
  (** jobs do not touch other keys *)
  Lemma perform_frame {V} (jobs : list (job E K V)) : forall s e q,
    (forall k, In k (map fst jobs) -> kcmp q k <> Eq) -> fst (fst (perform kcmp jobs s e)) q = s q.
  Proof.
    induction jobs as [|[k j] jobs IH]; intros s e q H; cbn [perform]; [reflexivity|].
    assert (N : kcmp q k <> Eq) by (apply H; now left).
    destruct (j e (s k)) as [[e' o] [|]]; [rewrite IH|]; cbn [fst].
    - destruct (kcmp q k); congruence.
    - intros k' Hk. apply H. now right.
    - destruct (kcmp q k); congruence.
  Qed.
  (** nor depend on them *)
  Lemma perform_upd {V} (jobs : list (job E K V)) k0 o0 : forall s e,
    (forall k, In k (map fst jobs) -> kcmp k k0 <> Eq) ->
    same (perform kcmp jobs (upd k0 o0 s) e)
         (let '(s1, e1, ok) := perform kcmp jobs s e in (upd k0 o0 s1, e1, ok)).
  Proof.
    induction jobs as [|[k j] jobs IH]; intros s e H; cbn [perform]; [apply same_refl|].
    assert (N : kcmp k k0 <> Eq) by (apply H; now left).
    replace (upd k0 o0 s k) with (s k) by (unfold upd; destruct (kcmp k k0); congruence).
    destruct (j e (s k)) as [[e' o] ok].
    assert (C : forall q, match kcmp q k with Eq => o | _ => upd k0 o0 s q end =
                          upd k0 o0 (fun q => match kcmp q k with Eq => o | _ => s q end) q).
    { intros q. unfold upd. destruct (kcmp q k) eqn:Q1; try reflexivity. destruct (kcmp q k0) eqn:Q2; try reflexivity.
      exfalso. apply N. rewrite <- (cmp_eq_l L _ _ k0 Q1). exact Q2. }
    destruct ok.
    - eapply same_trans; [apply perform_ext; exact C|]. apply IH. intros k' Hk. apply H. now right.
    - split; [exact C|auto].
  Qed.

  (** a loop whose steps do one job each, started where [Pre] holds of the entry of each key *)
  Definition step_ok {V X} (Pre : K * X -> option (K * V) -> Prop)
    (st : list (K * V) -> E -> K * X -> done (list (K * V) * E)) (jb : K * X -> job E K V) (p : K * X) : Prop :=
    fst (jb p) = fst p /\
    forall m e, keys_sorted kcmp m -> Pre p (entry kcmp (fst p) m) ->
      let '(e', o, ok) := snd (jb p) e (entry kcmp (fst p) m) in
      exists m', st m e p = (if ok then Done (m', e') else Unwound (m', e')) /\ keys_sorted kcmp m' /\
        forall q, entry kcmp q m' = match kcmp q (fst p) with Eq => o | _ => entry kcmp q m end.
  Lemma eloop_does {V X} Pre st (jb : K * X -> job E K V) : forall (l : list (K * X)) m e,
    (forall p, In p l -> step_ok Pre st jb p) -> keys_sorted kcmp l ->
    (forall p, In p l -> Pre p (entry kcmp (fst p) m)) -> keys_sorted kcmp m ->
    does kcmp (eloop st l m e) (perform kcmp (map jb l) (fun k => entry kcmp k m) e).
  Proof.
    induction l as [|p l IH]; intros m e H Sl HP S; cbn [eloop map perform].
    - exists m. split; [reflexivity|]. split; [assumption|reflexivity].
    - apply ks_cons in Sl as [Sl Hlt].
      destruct (H p (or_introl eq_refl)) as (HK & H1). specialize (H1 m e S (HP p (or_introl eq_refl))).
      destruct (jb p) as [k j]. cbn [fst snd] in *. subst k.
      destruct (j e (entry kcmp (fst p) m)) as [[e' o] ok]. destruct H1 as (m' & Q & S' & HE). rewrite Q.
      destruct ok.
      + assert (HP' : forall x, In x l -> Pre x (entry kcmp (fst x) m')).
        { intros x Hx. rewrite HE. rewrite (proj1 (cmp_lt_gt L _ _) (Hlt x Hx)). apply HP. now right. }
        specialize (IH m' e' (fun x Hx => H x (or_intror Hx)) Sl HP' S').
        eapply does_same; [|exact IH]. apply perform_ext. exact HE.
      + exists m'. split; [reflexivity|]. split; [assumption|exact HE].
  Qed.

  (** jobs that leave everything as it is can be left out *)
  Definition resp {V} (s : K -> option (K * V)) : Prop := forall q k, kcmp q k = Eq -> s q = s k.
  Lemma perform_resp {V} (jobs : list (job E K V)) : forall s e, resp s -> resp (fst (fst (perform kcmp jobs s e))).
  Proof.
    induction jobs as [|[k j] jobs IH]; intros s e R; cbn [perform]; [exact R|].
    destruct (j e (s k)) as [[e' o] ok].
    assert (R2 : resp (fun q => match kcmp q k with Eq => o | _ => s q end)).
    { intros q q' Q. rewrite (cmp_eq_l L _ _ k Q). destruct (kcmp q' k); auto. }
    destruct ok; [now apply IH|exact R2].
  Qed.
  Lemma perform_filter {V X} (keep : X -> bool) (jb jb' : X -> job E K V) : forall l s e, resp s ->
    (forall x, In x l -> keep x = false -> forall e o, snd (jb x) e o = (e, o, true)) ->
    (forall x, In x l -> keep x = true -> fst (jb x) = fst (jb' x) /\ forall e o, snd (jb x) e o = snd (jb' x) e o) ->
    same (perform kcmp (map jb l) s e) (perform kcmp (map jb' (filter keep l)) s e).
  Proof.
    induction l as [|x l IH]; intros s e R H1 H2; cbn [map filter perform]; [apply same_refl|].
    pose proof (H1 x (or_introl eq_refl)) as A. pose proof (H2 x (or_introl eq_refl)) as B.
    specialize (IH) as IH'. destruct (jb x) as [k j]. cbn [fst snd] in *. destruct (keep x).
    - destruct (B eq_refl) as (HK & HJ). cbn [map perform]. destruct (jb' x) as [k' j']. cbn [fst snd] in *. subst k'.
      rewrite HJ. destruct (j' e (s k)) as [[e' o] [|]]; [|apply same_refl].
      apply IH'; [|intros; apply H1; auto; now right|intros; apply H2; auto; now right].
      intros q q' Q. rewrite (cmp_eq_l L _ _ k Q). destruct (kcmp q' k); auto.
    - rewrite (A eq_refl). eapply same_trans; [apply perform_ext with (s' := s)|].
      + intros q. destruct (kcmp q k) eqn:Q; try reflexivity. symmetry. now apply R.
      + apply IH'; [assumption|intros; apply H1; auto; now right|intros; apply H2; auto; now right].
  Qed.
  Lemma perform_jobs {V X} (jb jb' : X -> job E K V) l s e :
    (forall x, In x l -> fst (jb x) = fst (jb' x) /\ forall e o, snd (jb x) e o = snd (jb' x) e o) ->
    perform kcmp (map jb l) s e = perform kcmp (map jb' l) s e.
  Proof.
    revert s e. induction l as [|x l IH]; intros s e H; cbn [map perform]; [reflexivity|].
    destruct (H x (or_introl eq_refl)) as (HK & HJ). destruct (jb x) as [k j], (jb' x) as [k' j']. cbn [fst snd] in *. subst k'.
    rewrite HJ. destruct (j' e (s k)) as [[e' o] [|]]; [|reflexivity]. apply IH. intros y Hy. apply H. now right.
  Qed.

  Lemma write_ok {V X} (f : kmclos E K V X) x k m e p : keys_sorted kcmp m -> entry kcmp k m = Some p ->
    let '(e', o, ok) := adjust f k x e p in
    exists m', ecall_mut kcmp f x k (snd p) m e = (if ok then Done (m', e') else Unwound (m', e')) /\ keys_sorted kcmp m' /\
      forall q, entry kcmp q m' = match kcmp q k with Eq => o | _ => entry kcmp q m end.
  Proof.
    intros S Qm. unfold adjust, ecall_mut. destruct (f e k (snd p) x) as [[e' v'] r].
    destruct (bset_spec L m k v') as (M1 & E1).
    assert (S1 : keys_sorted kcmp (btm_set kcmp m k v')) by (unfold keys_sorted; now rewrite M1).
    rewrite Qm in E1. cbn [option_map] in E1.
    destruct r as [[|]|].
    - exists (btm_set kcmp m k v'). split; [reflexivity|]. split; [assumption|]. intros q. now apply E1.
    - destruct (bremove_spec L _ k S1) as (S2 & _ & E2). exists (btm_remove kcmp (btm_set kcmp m k v') k).
      split; [reflexivity|]. split; [assumption|]. intros q. rewrite E2, E1 by assumption. destruct (kcmp q k); reflexivity.
    - exists (btm_set kcmp m k v'). split; [reflexivity|]. split; [assumption|]. intros q. now apply E1.
  Qed.

  Lemma eretain_keys {V} (f : E -> K -> V -> E * V * cres bool) : forall m e r e',
    ebtm_retain m f e = Done (r, e') \/ ebtm_retain m f e = Unwound (r, e') ->
    forall p, In p r -> In (fst p) (map fst m).
  Proof.
    induction m as [|[k v] m IH]; intros e r e' H p Hp; cbn [ebtm_retain] in H.
    - destruct H as [H|H]; [injection H as <- <-; destruct Hp|discriminate].
    - destruct (f e k v) as [[e1 v'] [keep|]].
      + destruct (ebtm_retain m f e1) as [[r2 e2]|[r2 e2]|] eqn:Q; destruct H as [H|H]; try discriminate;
          injection H as <- <-; specialize (IH e1 r2 e2); rewrite Q in IH;
          (destruct keep; [destruct Hp as [<-|Hp]; [now left|]|]; right; apply IH; auto).
      + destruct H as [H|H]; [discriminate|]. injection H as <- <-. destruct Hp as [<-|Hp]; [now left|right].
        now apply in_map.
  Qed.
  Lemma eretain_does {V} (f : E -> K -> V -> E * V * cres bool) : forall m e, keys_sorted kcmp m ->
    does kcmp (ebtm_retain m f e)
      (perform kcmp (map (fun p => visit (fun e k v (_ : unit) => f e k v) tt (fst p)) m) (fun k => entry kcmp k m) e).
  Proof.
    induction m as [|[k v] m IH]; intros e S; cbn [ebtm_retain map perform].
    - exists []. split; [reflexivity|]. split; [assumption|reflexivity].
    - apply ks_cons in S as [S H]. cbn [fst] in *. unfold visit at 1. rewrite entry_cons. cbn [fst]. rewrite (cmp_refl L).
      unfold adjust. cbn [fst snd]. destruct (f e k v) as [[e1 v'] r].
      assert (B : forall q, kcmp q k = Eq -> entry kcmp q m = None).
      { intros q Q. apply entry_below. intros p Hp. rewrite (cmp_eq_l L _ _ _ Q). now apply H. }
      destruct r as [keep|].
      + specialize (IH e1 S). set (jobs := map _ m) in *.
        set (o := if keep then Some (k, v') else None).
        assert (Q : does kcmp (match ebtm_retain m f e1 with
            | Done (m2, e2) => Done (if keep then (k, v') :: m2 else m2, e2)
            | Unwound (m2, e2) => Unwound (if keep then (k, v') :: m2 else m2, e2)
            | DoneNoFuel => DoneNoFuel end)
            (let '(s1, e2, ok) := perform kcmp jobs (fun q => entry kcmp q m) e1 in (upd k o s1, e2, ok))).
        { destruct (perform kcmp jobs (fun q => entry kcmp q m) e1) as [[s1 e2] ok]. destruct IH as (r & Q & Sr & Er).
          exists (if keep then (k, v') :: r else r). split; [rewrite Q; now destruct ok|].
          assert (IR : forall p, In p r -> kcmp k (fst p) = Lt).
          { intros p Hp. assert (HI : In (fst p) (map fst m)).
            { eapply (eretain_keys f m e1 r e2); [|exact Hp]. rewrite Q. destruct ok; auto. }
            apply in_map_iff in HI as (p' & <- & Hp'). now apply H. }
          unfold o, upd. destruct keep; split.
          - apply ks_cons. split; [assumption|]. exact IR.
          - intros q. rewrite entry_cons. cbn [fst]. now destruct (kcmp q k).
          - assumption.
          - intros q. destruct (kcmp q k) eqn:Eq0; try apply Er. apply entry_below. intros p Hp.
            rewrite (cmp_eq_l L _ _ _ Eq0). now apply IR. }
        assert (P : same (let '(s1, e2, ok) := perform kcmp jobs (fun q => entry kcmp q m) e1 in (upd k o s1, e2, ok))
                         (perform kcmp jobs (fun q => match kcmp q k with Eq => o | _ => entry kcmp q ((k, v) :: m) end) e1)).
        { eapply same_trans; [apply same_sym, perform_upd|].
          - intros k' Hk. unfold jobs in Hk. rewrite map_map in Hk. cbn [fst visit] in Hk.
            apply in_map_iff in Hk as (p & <- & Hp). rewrite (proj1 (cmp_lt_gt L _ _) (H p Hp)). discriminate.
          - apply perform_ext. intros q. unfold upd. rewrite entry_cons. cbn [fst]. now destruct (kcmp q k). }
        eapply does_same; [|exact Q]. eapply same_trans; [exact P|]. unfold o. destruct keep; apply same_refl.
      + exists ((k, v') :: m). split; [reflexivity|]. split; [apply ks_cons; split; assumption|].
        intros q. rewrite !entry_cons. cbn [fst]. now destruct (kcmp q k).
  Qed.

  (** a call that inserts its result, where the map has no entry yet *)
  Lemma ins_ok {R X} (f : clos E X (option R)) x k m e : keys_sorted kcmp m ->
    entry kcmp k m = None ->
    let '(e', o, ok) := snd (fresh f x k) e (entry kcmp k m) in
    exists m', ecall_ins kcmp f x k m e = (if ok then Done (m', e') else Unwound (m', e')) /\ keys_sorted kcmp m' /\
      forall q, entry kcmp q m' = match kcmp q k with Eq => o | _ => entry kcmp q m end.
  Proof.
    intros S N. cbn [fresh snd]. unfold ecall_ins. destruct (f e x) as [e' [[r|]|]].
    - destruct (binsert_spec L m k r S) as (S1 & _ & E1). eexists. split; [reflexivity|]. split; [assumption|].
      intros q. rewrite E1, N. reflexivity.
    - exists m. split; [reflexivity|]. split; [assumption|]. intros q. destruct (kcmp q k) eqn:Q; try reflexivity.
      now rewrite (entry_eq L _ _ m Q).
    - exists m. split; [reflexivity|]. split; [assumption|]. intros q. destruct (kcmp q k) eqn:Q; try reflexivity.
      now rewrite (entry_eq L _ _ m Q).
  Qed.
End Facts.

(** *** C108 *)
Theorem C108_pure_joins :
  forall (K V W R E : Type) (kcmp : K -> K -> comparison) (a : list (K * V)) (b : list (K * W)) (e : E),
    OrdLaws kcmp -> keys_sorted kcmp a -> keys_sorted kcmp b ->
    (forall f : clos E (ojarg K V W) (option R),
       makes kcmp (ebtm_outer_join kcmp a b f e) (perform kcmp (outer_jobs kcmp a b f) (fun _ => None) e)) /\
    (forall f : clos E (K * V * option W) (option R),
       makes kcmp (ebtm_left_join kcmp a b f e) (perform kcmp (left_jobs kcmp a b f) (fun _ => None) e)) /\
    (forall f : clos E (K * option V * W) (option R),
       makes kcmp (ebtm_right_join kcmp a b f e) (perform kcmp (right_jobs kcmp a b f) (fun _ => None) e)) /\
    (forall f : clos E (K * V * W) (option R),
       makes kcmp (ebtm_inner_join kcmp a b f e) (perform kcmp (inner_jobs kcmp a b f) (fun _ => None) e)).
Proof.
  intros K V W R E kcmp a b e L Sa Sb.
  assert (NL : keys_sorted kcmp (@nil (K * R))) by apply sorted_nil.
  set (Pre := fun (X : Type) (_ : K * X) (o : option (K * R)) => o = None).
  split; [|split; [|split]]; intros f.
  - apply does_makes. unfold ebtm_outer_join, outer_jobs. rewrite perform_app.
    match goal with |- context [eloop ?st a [] e] => set (st1 := st) end.
    match goal with |- context [map ?j a] => set (jb1 := j) end.
    assert (D1 : does kcmp (eloop st1 a [] e) (perform kcmp (map jb1 a) (fun k => entry kcmp k []) e)).
    { apply (eloop_does L (Pre V)); auto; [|intros p _; reflexivity].
      intros [k v] _. split; [reflexivity|]. intros m e0 S N. unfold st1, jb1, val. cbn [fst snd] in *.
      rewrite (bget_entry (kcmp := kcmp)). now apply (ins_ok L). }
    change (fun _ : K => None) with (fun k : K => entry kcmp k (@nil (K * R))).
    assert (FR : forall q, entry kcmp q a = None -> fst (fst (perform kcmp (map jb1 a) (fun k => entry kcmp k []) e)) q = None).
    { intros q N. rewrite perform_frame; [reflexivity|]. intros k Hk. rewrite map_map in Hk. cbn [jb1 fresh fst] in Hk.
      apply in_map_iff in Hk as (p & <- & Hp). apply (proj1 (entry_None _ _) N p Hp). }
    destruct (perform kcmp (map jb1 a) (fun k => entry kcmp k []) e) as [[s1 e1] ok]. cbn [fst] in FR.
    destruct D1 as (r & Q & Sr & Er). rewrite Q. destruct ok.
    + match goal with |- context [eloop ?st b r e1] => set (st2 := st) end.
      set (jb2 := fun p : K * W => fresh f (OJRight (fst p) (snd p)) (fst p)).
      set (jb := fun p : K * W => if absent kcmp a p then jb2 p else (fst p, fun (e : E) (o : option (K * R)) => (e, o, true))).
      assert (D2 : does kcmp (eloop st2 b r e1) (perform kcmp (map jb b) (fun k => entry kcmp k r) e1)).
      { apply (eloop_does L (fun p o => absent kcmp a p = true -> o = None)); auto.
        - intros [k w] _. split; [unfold jb; now destruct (absent _ _ _)|].
          intros m e0 S N. unfold st2, jb, absent in *. cbn [fst snd] in *.
          rewrite (bget_entry (kcmp := kcmp)). destruct (entry kcmp k a) as [p|]; cbn [option_map].
          + exists m. split; [reflexivity|]. split; [assumption|]. intros q. destruct (kcmp q k) eqn:Q0; try reflexivity.
            now apply (entry_eq L).
          + now apply (ins_ok L), N.
        - intros p _ Hp. rewrite Er. apply FR. unfold absent in Hp. now destruct (entry kcmp (fst p) a). }
      eapply does_same; [|exact D2]. eapply same_trans; [apply (perform_filter L (absent kcmp a) jb jb2)|].
      * intros q k Q0. now apply (entry_eq L).
      * intros x _ Hx. unfold jb. rewrite Hx. reflexivity.
      * intros x _ Hx. unfold jb. rewrite Hx. auto.
      * apply perform_ext. exact Er.
    + exists r. split; [reflexivity|]. split; assumption.
  - apply does_makes. unfold ebtm_left_join, left_jobs.
    change (fun _ : K => None) with (fun k : K => entry kcmp k (@nil (K * R))).
    apply (eloop_does L (Pre V)); auto; [|intros p _; reflexivity].
    intros [k v] _. split; [reflexivity|]. intros m e0 S N. unfold val. cbn [fst snd] in *.
    rewrite (bget_entry (kcmp := kcmp)). now apply (ins_ok L).
  - apply does_makes. unfold ebtm_right_join, right_jobs.
    change (fun _ : K => None) with (fun k : K => entry kcmp k (@nil (K * R))).
    apply (eloop_does L (Pre W)); auto; [|intros p _; reflexivity].
    intros [k v] _. split; [reflexivity|]. intros m e0 S N. unfold val. cbn [fst snd] in *.
    rewrite (bget_entry (kcmp := kcmp)). now apply (ins_ok L).
  - apply does_makes. unfold ebtm_inner_join, ebtm_inner_join_hint, inner_jobs. cbn [abstract_size_hint Nat.ltb Nat.leb].
    change (fun _ : K => None) with (fun k : K => entry kcmp k (@nil (K * R))).
    apply (eloop_does L (Pre W)); auto; [|intros p _; reflexivity].
    intros [k w] _. split; [cbn [fst]; now destruct (val _ _ _)|]. intros m e0 S N. unfold val. cbn [fst snd] in *.
    rewrite (bget_entry (kcmp := kcmp)). destruct (option_map snd (entry kcmp k a)) as [v|]; [now apply (ins_ok L)|].
    cbn [discard snd]. exists m. split; [reflexivity|]. split; [assumption|].
    intros q. destruct (kcmp q k) eqn:Q0; try reflexivity. rewrite (entry_eq L _ _ m Q0). exact N.
Qed.
Print Assumptions C108_pure_joins.

Theorem C108_in_place_joins :
  forall (K V W E : Type) (kcmp : K -> K -> comparison) (a : list (K * V)) (b : list (K * W)) (e : E),
    OrdLaws kcmp -> keys_sorted kcmp a -> keys_sorted kcmp b ->
    (forall f : kmclos E K V W,
       does kcmp (ebtm_inner_join_with kcmp a b f e)
         (perform kcmp (inner_with_jobs kcmp a b f) (fun k => entry kcmp k a) e)) /\
    (forall f : kmclos E K V (option W),
       does kcmp (ebtm_left_join_with kcmp a b f e)
         (perform kcmp (left_with_jobs kcmp a b f) (fun k => entry kcmp k a) e)) /\
    (forall (fs : kmclos E K V W) (fn : clos E (K * W) bool),
       does kcmp (ebtm_right_join_with kcmp a b fs fn e)
         (perform kcmp (right_with_jobs b fs fn) (fun k => entry kcmp k a) e)) /\
    (forall (l : kmclos E K V (option W)) (r : clos E (K * W) (option V)),
       does kcmp (ebtm_outer_join_with kcmp a b l r e)
         (perform kcmp (outer_with_jobs kcmp a b l r) (fun k => entry kcmp k a) e)).
Proof.
  intros K V W E kcmp a b e L Sa Sb. split; [|split; [|split]].
  - intros f. eapply does_same; [|apply (eretain_does L); assumption].
    unfold inner_with_jobs. rewrite (perform_jobs (kcmp := kcmp) _ (fun p => match val kcmp b (fst p) with Some w => visit f w (fst p) | None => discard (fst p) end)).
    + apply same_refl.
    + intros [k v] _. cbn [fst]. unfold val. split; [now destruct (option_map _ _)|]. intros e0 o.
      unfold visit, adjust, discard. cbn [snd]. rewrite (bget_entry (kcmp := kcmp)).
      destruct (option_map snd (entry kcmp k b)) as [w|]; cbn [snd]; destruct o as [p|]; reflexivity.
  - intros f. eapply does_same; [|apply (eretain_does L); assumption].
    unfold left_with_jobs. rewrite (perform_jobs (kcmp := kcmp) _ (fun p => visit f (val kcmp b (fst p)) (fst p))); [apply same_refl|].
    intros [k v] _. cbn [fst]. split; [reflexivity|]. intros e0 o. unfold visit, adjust, val. cbn [snd].
    now rewrite (bget_entry (kcmp := kcmp)).
  - intros fs fn. unfold ebtm_right_join_with, right_with_jobs.
    apply (eloop_does L (fun _ _ => True)); auto. intros [k w] _. split; [reflexivity|]. intros m e0 S _. cbn [fst snd].
    rewrite (bget_entry (kcmp := kcmp)). destruct (entry kcmp k m) as [p|] eqn:Qm; cbn [option_map]; [now apply (write_ok L)|].
    assert (N : forall q, entry kcmp q m = match kcmp q k with Eq => None | _ => entry kcmp q m end).
    { intros q. destruct (kcmp q k) eqn:Q0; try reflexivity. now rewrite (entry_eq L _ _ m Q0). }
    destruct (fn e0 (k, w)) as [e1 [[|]|]].
    + exists m. auto.
    + destruct (bremove_spec L m k S) as (S1 & _ & E1). eexists. split; [reflexivity|]. split; [assumption|exact E1].
    + exists m. auto.
  - intros l r. unfold ebtm_outer_join_with, outer_with_jobs. rewrite perform_app.
    match goal with |- context [eloop ?st b a e] => set (st1 := st) end.
    match goal with |- context [map ?j b] => set (jb1 := j) end.
    assert (D1 : does kcmp (eloop st1 b a e) (perform kcmp (map (B := job E K V) jb1 b) (fun k => entry kcmp k a) e)).
    { apply (eloop_does L (fun _ _ => True)); auto. intros [k w] _. split; [reflexivity|]. intros m e0 S _. unfold st1, jb1. cbn [fst snd].
      rewrite (bget_entry (kcmp := kcmp)). destruct (entry kcmp k m) as [p|] eqn:Qm; cbn [option_map]; [now apply (write_ok L)|].
      assert (N : forall q, entry kcmp q m = match kcmp q k with Eq => None | _ => entry kcmp q m end).
      { intros q. destruct (kcmp q k) eqn:Q0; try reflexivity. now rewrite (entry_eq L _ _ m Q0). }
      destruct (r e0 (k, w)) as [e1 [[v|]|]].
      - destruct (binsert_spec L m k v S) as (S1 & _ & E1). eexists. split; [reflexivity|]. split; [assumption|].
        intros q. rewrite E1, Qm. reflexivity.
      - exists m. auto.
      - exists m. auto. }
    assert (FR : forall q, entry kcmp q b = None -> fst (fst (perform kcmp (map (B := job E K V) jb1 b) (fun k => entry kcmp k a) e)) q = entry kcmp q a).
    { intros q N. rewrite perform_frame; [reflexivity|]. intros k Hk. rewrite map_map in Hk. cbn [jb1 fst] in Hk.
      apply in_map_iff in Hk as (p & <- & Hp). apply (proj1 (entry_None _ _) N p Hp). }
    destruct (perform kcmp (map (B := job E K V) jb1 b) (fun k => entry kcmp k a) e) as [[s1 e1] ok]. cbn [fst] in FR.
    destruct D1 as (m & Q & Sm & Em). rewrite Q. destruct ok.
    + eapply does_same; [|apply (eretain_does L); assumption].
      eapply same_trans; [apply (perform_filter L (absent kcmp b) _ (fun p : K * V => visit l None (fst p)))|].
      * intros q k Q0. now apply (entry_eq L).
      * intros [k v] _ Hx e0 o. unfold visit, adjust, absent in *. cbn [fst snd] in *. rewrite (bget_entry (kcmp := kcmp)).
        destruct (entry kcmp k b); [|discriminate]. cbn [option_map]. now destruct o as [[k1 v1]|].
      * intros [k v] _ Hx. unfold visit, adjust, absent in *. cbn [fst snd] in *. split; [reflexivity|]. intros e0 o.
        rewrite (bget_entry (kcmp := kcmp)). destruct (entry kcmp k b); [discriminate|]. reflexivity.
      * assert (FE : filter (absent kcmp b) m = filter (absent kcmp b) a).
        { assert (AB : forall q : K * V, absent kcmp b q = true -> forall p, In p m /\ kcmp (fst q) (fst p) = Eq <-> In p a /\ kcmp (fst q) (fst p) = Eq).
          { intros q Hq p. rewrite <- !(entry_iff L) by assumption. rewrite Em, FR; [reflexivity|].
            unfold absent in Hq. now destruct (entry kcmp (fst q) b). }
          assert (G : forall x, In x (filter (absent kcmp b) m) <-> In x (filter (absent kcmp b) a)).
          { intros x. rewrite !filter_In. split; intros [Hx Ax]; (split; [|assumption]).
            - apply (AB x Ax x). split; [assumption|apply (cmp_refl L)].
            - apply (AB x Ax x). split; [assumption|apply (cmp_refl L)]. }
          assert (SF : forall l : list (K * V), keys_sorted kcmp l -> keys_sorted kcmp (filter (absent kcmp b) l)).
          { clear. intros l S. induction l as [|x l IH]; [exact S|]. apply ks_cons in S as [S H]. cbn [filter].
            destruct (absent kcmp b x); [|now apply IH]. apply ks_cons. split; [now apply IH|].
            intros q Hq. apply filter_In in Hq as [Hq _]. now apply H. }
          pose proof (SF m Sm) as S1. pose proof (SF a Sa) as S2. revert S1 S2 G.
          generalize (filter (absent kcmp b) m) as l1, (filter (absent kcmp b) a) as l2. clear - L.
          induction l1 as [|x l1 IH]; intros [|y l2] S1 S2 G; [reflexivity|exfalso; now apply (G y); left|exfalso; now apply (G x); left|].
          apply ks_cons in S1 as [S1 H1]. apply ks_cons in S2 as [S2 H2].
          assert (XY : x = y).
          { destruct (proj1 (G x) (or_introl eq_refl)) as [->|Hx]; [reflexivity|].
            destruct (proj2 (G y) (or_introl eq_refl)) as [<-|Hy]; [reflexivity|].
            pose proof (proj1 (cmp_lt_gt L _ _) (H1 y Hy)) as Q. rewrite (H2 x Hx) in Q. discriminate. }
          subst y. f_equal. apply IH; auto. intros z. split; intros Hz.
          - destruct (proj1 (G z) (or_intror Hz)) as [<-|?]; [|assumption].
            specialize (H1 x Hz). rewrite (cmp_refl L) in H1. discriminate.
          - destruct (proj2 (G z) (or_intror Hz)) as [<-|?]; [|assumption].
            specialize (H2 x Hz). rewrite (cmp_refl L) in H2. discriminate. }
        rewrite FE. apply perform_ext. exact Em.
    + exists m. split; [reflexivity|]. split; assumption.
Qed.
Print Assumptions C108_in_place_joins.

(** Logs its calls, adds the values, rejects key 3 and panics at key [p] after changing the value. *)
Definition btlog (p : nat) : kmclos (list nat) nat nat (option nat) :=
  fun e k v w => (e ++ [k], v + match w with Some w => w | None => 100 end,
                  if k =? p then Throw else Ret (negb (k =? 3))).
Example C108_witness :
  keys_sorted Nat.compare ma /\ keys_sorted Nat.compare mb /\
  ebtm_outer_join_with Nat.compare ma mb (btlog 99) (fun e p => (e ++ [fst p], Ret (Some (snd p)))) [] =
    Done ([(0, 5); (1, 110); (4, 140); (7, 78); (9, 9)], [0; 3; 7; 9; 1; 4]) /\
  ebtm_outer_join_with Nat.compare ma mb (btlog 7) (fun e p => (e ++ [fst p], Ret (Some (snd p)))) [] =
    Unwound ([(0, 5); (1, 10); (4, 40); (7, 78)], [0; 3; 7]) /\
  ebtm_left_join_with Nat.compare ma mb (btlog 4) [] =
    Unwound ([(1, 110); (4, 140); (7, 70)], [1; 3; 4]) /\
  ebtm_outer_join Nat.compare ma mb (fun e x => (e ++ [x], Ret (match x with OJBoth k v w => Some (v * w) | OJLeft _ v => None | OJRight _ w => Some w end))) [] =
    Done ([(0, 5); (3, 180); (7, 560); (9, 9)],
          [OJLeft 1 10; OJBoth 3 30 6; OJLeft 4 40; OJBoth 7 70 8; OJRight 0 5; OJRight 9 9]).
Proof. split; [exact ma_ok|]. split; [exact mb_ok|]. repeat split; reflexivity. Qed.

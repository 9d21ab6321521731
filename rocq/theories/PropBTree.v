(** Properties C41-C43: joins of BTreeMaps. A map is valid when its keys are strictly increasing
    ([keys_sorted]); [entry k m] is the entry of m with a key equal to k. *)
From Verif Require Import VecMapSpec PropMap BTreeModel.

Section BT.
  Context {K : Type} {kcmp : K -> K -> comparison} (L : OrdLaws kcmp).

  Lemma bget_entry {V} (m : list (K * V)) k : btm_get kcmp m k = option_map snd (entry kcmp k m).
  Proof.
    rewrite <- lookup_entry. induction m as [|[k' v] m IH]; cbn [btm_get lookup]; [reflexivity|].
    destruct (kcmp k k'); auto.
  Qed.
  Lemma entry_cons {V} k (p : K * V) m :
    entry kcmp k (p :: m) = match kcmp k (fst p) with Eq => Some p | _ => entry kcmp k m end.
  Proof. unfold entry. cbn [find]. unfold eqb_of. destruct (kcmp k (fst p)); reflexivity. Qed.
  Lemma entry_below {V} k (m : list (K * V)) : (forall p, In p m -> kcmp k (fst p) = Lt) -> entry kcmp k m = None.
  Proof. intros H. apply entry_None. intros p Hp. rewrite (H p Hp). discriminate. Qed.
  Lemma ks_cons {V} (p : K * V) m :
    keys_sorted kcmp (p :: m) <-> keys_sorted kcmp m /\ forall q, In q m -> kcmp (fst p) (fst q) = Lt.
  Proof.
    destruct p as [k v]. rewrite keys_sorted_cons. split; intros [S H]; (split; [assumption|]).
    - intros [k' v'] Hq. eapply H; eassumption.
    - intros k' v' Hq. exact (H (k', v') Hq).
  Qed.

  Lemma binsert_spec {V} (m : list (K * V)) k v : keys_sorted kcmp m ->
    keys_sorted kcmp (btm_insert kcmp m k v) /\
    (forall p, In p (btm_insert kcmp m k v) -> kcmp (fst p) k = Eq \/ In p m) /\
    forall q, entry kcmp q (btm_insert kcmp m k v) =
      match kcmp q k with
      | Eq => match entry kcmp k m with Some (k', _) => Some (k', v) | None => Some (k, v) end
      | _ => entry kcmp q m
      end.
  Proof.
    induction m as [|[k' v'] m IH]; intros S; cbn [btm_insert].
    - split; [apply sorted_single|]. split; [intros p [<-|[]]; left; apply (cmp_refl L)|].
      intros q. rewrite entry_cons. cbn [fst]. destruct (kcmp q k); reflexivity.
    - assert (S0 := S). apply ks_cons in S as [S H]. cbn [fst] in H. destruct (kcmp k k') eqn:E.
      + split; [apply ks_cons; split; assumption|]. split.
        * intros p [<-|Hp]; [left; cbn; now apply (cmp_sym L)|right; now right].
        * intros q. rewrite !entry_cons. cbn [fst]. rewrite E, <- (cmp_eq_r L _ _ q E). now destruct (kcmp q k).
      + split; [|split].
        * apply ks_cons. split; [assumption|]. intros q [<-|Hq]; [exact E|]. cbn [fst].
          eapply (cmp_lt_trans L); [exact E|]. now apply H.
        * intros p [<-|Hp]; [left; apply (cmp_refl L)|right; exact Hp].
        * intros q. rewrite (entry_cons q (k, v)). cbn [fst]. destruct (kcmp q k) eqn:Eq; try reflexivity.
          rewrite (entry_below k ((k', v') :: m)); [reflexivity|].
          intros p [<-|Hp]; [exact E|]. eapply (cmp_lt_trans L); [exact E|]. now apply H.
      + destruct (IH S) as (S1 & In1 & E1). split; [|split].
        * apply ks_cons. split; [assumption|]. intros q Hq. cbn [fst]. destruct (In1 q Hq) as [Q|Hq']; [|now apply H].
          rewrite (cmp_eq_r L _ _ k' Q). now apply (cmp_gt_lt L).
        * intros p [<-|Hp]; [right; now left|]. destruct (In1 p Hp); [now left|right; now right].
        * intros q. rewrite !entry_cons. cbn [fst]. rewrite E, E1.
          destruct (kcmp q k) eqn:Eq; [|reflexivity..].
          rewrite (cmp_eq_l L _ _ k' Eq), E. reflexivity.
  Qed.
  Lemma bremove_spec {V} (m : list (K * V)) k : keys_sorted kcmp m ->
    keys_sorted kcmp (btm_remove kcmp m k) /\
    (forall p, In p (btm_remove kcmp m k) -> In p m) /\
    forall q, entry kcmp q (btm_remove kcmp m k) = match kcmp q k with Eq => None | _ => entry kcmp q m end.
  Proof.
    induction m as [|[k' v'] m IH]; intros S; cbn [btm_remove].
    - split; [assumption|]. split; [auto|]. intros q. now destruct (kcmp q k).
    - apply ks_cons in S as [S H]. cbn [fst] in H.
      assert (D : kcmp k k' = Eq \/ btm_remove kcmp ((k', v') :: m) k = (k', v') :: btm_remove kcmp m k /\ kcmp k k' <> Eq).
      { cbn [btm_remove]. destruct (kcmp k k'); [now left|right; split; [reflexivity|discriminate]..]. }
      destruct D as [E|[E N]].
      + rewrite E. split; [assumption|]. split; [intros p Hp; now right|]. intros q. rewrite entry_cons. cbn [fst].
        rewrite <- (cmp_eq_r L _ _ q E). destruct (kcmp q k) eqn:Eq; try reflexivity.
        apply entry_below. intros p Hp. rewrite (cmp_eq_l L _ _ (fst p) Eq), (cmp_eq_l L _ _ (fst p) E). now apply H.
      + cbn [btm_remove] in E. rewrite E. destruct (IH S) as (S1 & In1 & E1). split; [|split].
        * apply ks_cons. split; [assumption|]. intros p Hp. apply H. auto.
        * intros p [<-|Hp]; [now left|right; auto].
        * intros q. rewrite !entry_cons. cbn [fst]. rewrite E1. destruct (kcmp q k) eqn:Eq; try reflexivity.
          rewrite (cmp_eq_l L _ _ k' Eq). now destruct (kcmp k k').
  Qed.
  Lemma bset_spec {V} (m : list (K * V)) k v :
    map fst (btm_set kcmp m k v) = map fst m /\
    forall q, keys_sorted kcmp m -> entry kcmp q (btm_set kcmp m k v) =
      match kcmp q k with Eq => option_map (fun p => (fst p, v)) (entry kcmp k m) | _ => entry kcmp q m end.
  Proof.
    induction m as [|[k' v'] m [IH1 IH2]]; cbn [btm_set].
    - split; [reflexivity|]. intros q _. now destruct (kcmp q k).
    - split.
      + destruct (kcmp k k'); cbn [map fst]; congruence.
      + intros q S. apply ks_cons in S as [S H]. cbn [fst] in H. specialize (IH2 q S).
        rewrite (entry_cons k (k', v')). cbn [fst].
        destruct (kcmp k k') eqn:E; rewrite !entry_cons; cbn [fst option_map].
        * rewrite <- (cmp_eq_r L _ _ q E). destruct (kcmp q k); reflexivity.
        * rewrite IH2. destruct (kcmp q k) eqn:Eq; try reflexivity. rewrite (cmp_eq_l L _ _ k' Eq), E. reflexivity.
        * rewrite IH2. destruct (kcmp q k) eqn:Eq; try reflexivity. rewrite (cmp_eq_l L _ _ k' Eq), E. reflexivity.
  Qed.
  Lemma bretain_spec {V} (m : list (K * V)) f : keys_sorted kcmp m ->
    keys_sorted kcmp (btm_retain m f) /\
    (forall p, In p (btm_retain m f) -> In (fst p) (map fst m)) /\
    forall q, entry kcmp q (btm_retain m f) =
      match entry kcmp q m with
      | Some (k, v) => let '(v', keep) := f k v in if keep then Some (k, v') else None
      | None => None
      end.
  Proof.
    induction m as [|[k v] m IH]; intros S; cbn [btm_retain].
    - split; [assumption|]. split; [intros p []|reflexivity].
    - apply ks_cons in S as [S H]. cbn [fst] in H. destruct (IH S) as (S1 & In1 & E1).
      assert (B : forall q, kcmp q k = Eq -> entry kcmp q (btm_retain m f) = None).
      { intros q Eq. apply entry_below. intros p Hp. apply In1 in Hp. apply in_map_iff in Hp as (p' & <- & Hp).
        rewrite (cmp_eq_l L _ _ _ Eq). now apply H. }
      destruct (f k v) as [v' keep] eqn:Q. destruct keep.
      + split; [|split].
        * apply ks_cons. split; [assumption|]. intros p Hp. apply In1 in Hp. apply in_map_iff in Hp as (p' & <- & Hp).
          now apply H.
        * intros p [<-|Hp]; [now left|right; auto].
        * intros q. rewrite !entry_cons. cbn [fst]. destruct (kcmp q k); [|apply E1..]. now rewrite Q.
      + split; [assumption|]. split; [intros p Hp; right; auto|].
        intros q. rewrite !entry_cons. cbn [fst]. destruct (kcmp q k) eqn:Eq; [|apply E1..].
        rewrite Q. now apply B.
  Qed.

  (** a loop over [l] whose steps touch one key each *)
  Lemma loop_spec {X V} (st : list (K * V) -> K * X -> list (K * V))
      (h : K * X -> option (K * V) -> option (K * V)) (l : list (K * X)) :
    (forall m p, In p l -> keys_sorted kcmp m ->
       keys_sorted kcmp (st m p) /\
       forall q, entry kcmp q (st m p) =
         match kcmp q (fst p) with Eq => h p (entry kcmp (fst p) m) | _ => entry kcmp q m end) ->
    keys_sorted kcmp l -> forall m, keys_sorted kcmp m ->
    keys_sorted kcmp (fold_left st l m) /\
    forall q, entry kcmp q (fold_left st l m) =
      match entry kcmp q l with Some p => h p (entry kcmp q m) | None => entry kcmp q m end.
  Proof.
    induction l as [|p l IH]; intros H S m Sm; cbn [fold_left].
    - split; [assumption|]. reflexivity.
    - apply ks_cons in S as [S Hp].
      destruct (H m p (or_introl eq_refl) Sm) as (S1 & E1).
      destruct (IH (fun m q Hq => H m q (or_intror Hq)) S (st m p) S1) as (S2 & E2).
      split; [assumption|]. intros q. rewrite E2, entry_cons, E1. destruct (kcmp q (fst p)) eqn:Q.
      + assert (N : entry kcmp q l = None).
        { apply entry_below. intros p' Hp'. rewrite (cmp_eq_l L _ _ _ Q). now apply Hp. }
        rewrite N. f_equal. symmetry. now apply (entry_eq L).
      + reflexivity.
      + reflexivity.
  Qed.
  Lemma ins_step {X R} (g : K * X -> option R) (m : list (K * R)) p : keys_sorted kcmp m ->
    keys_sorted kcmp (ins_some kcmp m (fst p) (g p)) /\
    forall q, entry kcmp q (ins_some kcmp m (fst p) (g p)) =
      match kcmp q (fst p) with
      | Eq => match g p with
              | Some r => match entry kcmp (fst p) m with Some (k', _) => Some (k', r) | None => Some (fst p, r) end
              | None => entry kcmp (fst p) m
              end
      | _ => entry kcmp q m
      end.
  Proof.
    intros S. unfold ins_some. destruct (g p) as [r|].
    - destruct (binsert_spec m (fst p) r S) as (S1 & _ & E1). split; assumption.
    - split; [assumption|]. intros q. destruct (kcmp q (fst p)) eqn:Q; try reflexivity. now apply (entry_eq L).
  Qed.
  (** the loops of the joins: insert g p under the key of p *)
  Lemma join_loop {X R} (st : list (K * R) -> K * X -> list (K * R)) (g : K * X -> option R) (l : list (K * X)) :
    (forall m p, st m p = ins_some kcmp m (fst p) (g p)) ->
    keys_sorted kcmp l -> forall m, keys_sorted kcmp m ->
    keys_sorted kcmp (fold_left st l m) /\
    forall q, entry kcmp q (fold_left st l m) =
      match entry kcmp q l with
      | Some p => match g p with
                  | Some r => match entry kcmp q m with Some (k', _) => Some (k', r) | None => Some (fst p, r) end
                  | None => entry kcmp q m
                  end
      | None => entry kcmp q m
      end.
  Proof.
    intros Hst S m Sm.
    apply (loop_spec st (fun p o => match g p with
        | Some r => match o with Some (k', _) => Some (k', r) | None => Some (fst p, r) end
        | None => o end) l); auto.
    intros m0 p _ S0. rewrite Hst. now apply ins_step.
  Qed.
End BT.

(** ** C41 *)
Theorem C41_joins_pointwise :
  forall (K V W R : Type) (kcmp : K -> K -> comparison) (a : list (K * V)) (b : list (K * W)),
    OrdLaws kcmp -> keys_sorted kcmp a -> keys_sorted kcmp b ->
    (forall f : ojarg K V W -> option R,
       let r := btm_outer_join kcmp a b f in
       keys_sorted kcmp r /\
       forall k, entry kcmp k r =
         match entry kcmp k a, entry kcmp k b with
         | Some (k1, x), Some (_, y) => option_map (pair k1) (f (OJBoth k1 x y))
         | Some (k1, x), None => option_map (pair k1) (f (OJLeft k1 x))
         | None, Some (k2, y) => option_map (pair k2) (f (OJRight k2 y))
         | None, None => None
         end) /\
    (forall f : K -> V -> option W -> option R,
       let r := btm_left_join kcmp a b f in
       keys_sorted kcmp r /\
       forall k, entry kcmp k r =
         match entry kcmp k a with
         | Some (k1, x) => option_map (pair k1) (f k1 x (option_map snd (entry kcmp k b)))
         | None => None
         end) /\
    (forall f : K -> option V -> W -> option R,
       let r := btm_right_join kcmp a b f in
       keys_sorted kcmp r /\
       forall k, entry kcmp k r =
         match entry kcmp k b with
         | Some (k2, y) => option_map (pair k2) (f k2 (option_map snd (entry kcmp k a)) y)
         | None => None
         end) /\
    (forall f : K -> V -> W -> option R,
       let r := btm_inner_join kcmp a b f in
       keys_sorted kcmp r /\
       forall k, entry kcmp k r =
         match entry kcmp k a, entry kcmp k b with
         | Some (_, x), Some (k2, y) => option_map (pair k2) (f k2 x y)
         | _, _ => None
         end) /\
    (* whatever the size hints, inner_join calls f with the key of one of the operands *)
    (forall (f : K -> V -> W -> option R) (ha hb : nat),
       let r := btm_inner_join_hint kcmp ha hb a b f in
       keys_sorted kcmp r /\
       forall k, entry kcmp k r =
         match entry kcmp k a, entry kcmp k b with
         | Some (k1, x), Some (k2, y) =>
             let key := if ha <? hb then k1 else k2 in option_map (pair key) (f key x y)
         | _, _ => None
         end).
Proof.
  intros K V W R kcmp a b L Sa Sb.
  assert (NL : forall X, keys_sorted kcmp (@nil (K * X))) by (intros; apply sorted_nil).
  assert (EQ : forall X k k1 x (m : list (K * X)), entry kcmp k m = Some (k1, x) ->
    forall Y (m' : list (K * Y)), entry kcmp k1 m' = entry kcmp k m').
  { intros X k k1 x m Q Y m'. apply entry_Some_In in Q as [_ Q]. symmetry. now apply (entry_eq L). }
  split; [|split; [|split; [|split]]].
  - intros f r. unfold r, btm_outer_join.
    destruct (join_loop L (fun (res : list (K * R)) '(k, v) =>
        ins_some kcmp res k (f (match btm_get kcmp b k with Some w => OJBoth k v w | None => OJLeft k v end)))
      (fun p => f (match btm_get kcmp b (fst p) with Some w => OJBoth (fst p) (snd p) w | None => OJLeft (fst p) (snd p) end))
      a (fun m p => ltac:(destruct p; reflexivity)) Sa [] (NL R)) as (S1 & E1).
    set (res := fold_left _ a []) in *.
    destruct (join_loop L (fun (res : list (K * R)) '(k, w) =>
        match btm_get kcmp a k with None => ins_some kcmp res k (f (OJRight k w)) | Some _ => res end)
      (fun p => match btm_get kcmp a (fst p) with None => f (OJRight (fst p) (snd p)) | Some _ => None end)
      b (fun m p => ltac:(destruct p as [k w]; cbn [fst snd]; destruct (btm_get kcmp a k); reflexivity)) Sb res S1)
      as (S2 & E2).
    split; [assumption|]. intros k. rewrite E2, E1. cbn [entry find].
    destruct (entry kcmp k a) as [[k1 x]|] eqn:Qa, (entry kcmp k b) as [[k2 y]|] eqn:Qb; cbn [fst snd];
      rewrite ?(bget_entry (kcmp := kcmp)).
    + rewrite (EQ _ _ _ _ _ Qb), Qa. cbn [option_map]. rewrite (EQ _ _ _ _ _ Qa), Qb. cbn [option_map snd].
      destruct (f (OJBoth k1 x y)); reflexivity.
    + rewrite (EQ _ _ _ _ _ Qa), Qb. cbn [option_map]. destruct (f (OJLeft k1 x)); reflexivity.
    + rewrite (EQ _ _ _ _ _ Qb), Qa. cbn [option_map]. destruct (f (OJRight k2 y)); reflexivity.
    + reflexivity.
  - intros f r. unfold r, btm_left_join.
    destruct (join_loop L (fun (res : list (K * R)) '(k, v) => ins_some kcmp res k (f k v (btm_get kcmp b k)))
      (fun p => f (fst p) (snd p) (btm_get kcmp b (fst p)))
      a (fun m p => ltac:(destruct p; reflexivity)) Sa [] (NL R)) as (S1 & E1).
    split; [assumption|]. intros k. rewrite E1.
    destruct (entry kcmp k a) as [[k1 x]|] eqn:Qa; cbn [fst snd]; [|reflexivity].
    rewrite (bget_entry (kcmp := kcmp)), (EQ _ _ _ _ _ Qa). now destruct (f _ _ _).
  - intros f r. unfold r, btm_right_join.
    destruct (join_loop L (fun (res : list (K * R)) '(k, w) => ins_some kcmp res k (f k (btm_get kcmp a k) w))
      (fun p => f (fst p) (btm_get kcmp a (fst p)) (snd p))
      b (fun m p => ltac:(destruct p; reflexivity)) Sb [] (NL R)) as (S1 & E1).
    split; [assumption|]. intros k. rewrite E1.
    destruct (entry kcmp k b) as [[k1 x]|] eqn:Qa; cbn [fst snd]; [|reflexivity].
    rewrite (bget_entry (kcmp := kcmp)), (EQ _ _ _ _ _ Qa). now destruct (f _ _ _).
  - intros f r. unfold r, btm_inner_join, btm_inner_join_hint, abstract_size_hint. cbn [Nat.ltb Nat.leb].
    destruct (join_loop L (fun (res : list (K * R)) '(k, w) =>
        match btm_get kcmp a k with Some v => ins_some kcmp res k (f k v w) | None => res end)
      (fun p => match btm_get kcmp a (fst p) with Some v => f (fst p) v (snd p) | None => None end)
      b (fun m p => ltac:(destruct p as [k w]; cbn [fst snd]; destruct (btm_get kcmp a k); reflexivity)) Sb [] (NL R))
      as (S1 & E1).
    split; [assumption|]. intros k. rewrite E1.
    destruct (entry kcmp k b) as [[k2 y]|] eqn:Qb; cbn [fst snd]; [|now destruct (entry kcmp k a) as [[? ?]|]].
    rewrite (bget_entry (kcmp := kcmp)), (EQ _ _ _ _ _ Qb). destruct (entry kcmp k a) as [[k1 x]|]; [|reflexivity].
    cbn [option_map snd]. now destruct (f _ _ _).
  - intros f ha hb r. unfold r, btm_inner_join_hint. destruct (ha <? hb).
    + destruct (join_loop L (fun (res : list (K * R)) '(k, v) =>
          match btm_get kcmp b k with Some w => ins_some kcmp res k (f k v w) | None => res end)
        (fun p => match btm_get kcmp b (fst p) with Some w => f (fst p) (snd p) w | None => None end)
        a (fun m p => ltac:(destruct p as [k w]; cbn [fst snd]; destruct (btm_get kcmp b k); reflexivity)) Sa [] (NL R))
        as (S1 & E1).
      split; [assumption|]. intros k. rewrite E1.
      destruct (entry kcmp k a) as [[k1 x]|] eqn:Qa; cbn [fst snd]; [|reflexivity].
      rewrite (bget_entry (kcmp := kcmp)), (EQ _ _ _ _ _ Qa). destruct (entry kcmp k b) as [[k2 y]|]; [|reflexivity].
      cbn [option_map snd]. now destruct (f _ _ _).
    + destruct (join_loop L (fun (res : list (K * R)) '(k, w) =>
          match btm_get kcmp a k with Some v => ins_some kcmp res k (f k v w) | None => res end)
        (fun p => match btm_get kcmp a (fst p) with Some v => f (fst p) v (snd p) | None => None end)
        b (fun m p => ltac:(destruct p as [k w]; cbn [fst snd]; destruct (btm_get kcmp a k); reflexivity)) Sb [] (NL R))
        as (S1 & E1).
      split; [assumption|]. intros k. rewrite E1.
      destruct (entry kcmp k b) as [[k2 y]|] eqn:Qb; cbn [fst snd]; [|now destruct (entry kcmp k a) as [[? ?]|]].
      rewrite (bget_entry (kcmp := kcmp)), (EQ _ _ _ _ _ Qb). destruct (entry kcmp k a) as [[k1 x]|]; [|reflexivity].
      cbn [option_map snd]. now destruct (f _ _ _).
Qed.
Print Assumptions C41_joins_pointwise.
Example C41_witness :
  btm_outer_join Nat.compare ma mb (fun x => match x with OJLeft _ v => Some v | OJRight k w => if k =? 9 then None else Some w
                                           | OJBoth _ v w => Some (v + w) end) =
    [(0,5);(1,10);(3,36);(4,40);(7,78)] /\
  btm_inner_join Nat.compare ma mb (fun k v w => if k =? 3 then Some (v - w) else None) = [(3,24)].
Proof. split; reflexivity. Qed.

(** ** C42 *)
Section BTInPlace.
  Context {K : Type} {kcmp : K -> K -> comparison} (L : OrdLaws kcmp) {V W : Type}.
  (** writing the value found at [k] and keeping or removing it *)
  Lemma write_step (m : list (K * V)) k (o : V * bool) : keys_sorted kcmp m -> entry kcmp k m <> None ->
    let m' := (let '(v', keep) := o in let m1 := btm_set kcmp m k v' in if keep then m1 else btm_remove kcmp m1 k) in
    keys_sorted kcmp m' /\
    forall q, entry kcmp q m' =
      match kcmp q k with
      | Eq => if snd o then option_map (fun p => (fst p, fst o)) (entry kcmp k m) else None
      | _ => entry kcmp q m
      end.
  Proof.
    intros S _. destruct o as [v' keep]. cbn [fst snd].
    destruct (bset_spec L m k v') as (M1 & E1).
    assert (S1 : keys_sorted kcmp (btm_set kcmp m k v')) by (unfold keys_sorted; now rewrite M1).
    destruct keep.
    - split; [assumption|]. intros q. apply E1, S.
    - destruct (bremove_spec L _ k S1) as (S2 & _ & E2). split; [assumption|]. intros q. rewrite E2, E1 by assumption.
      destruct (kcmp q k); reflexivity.
  Qed.
End BTInPlace.

Theorem C42_in_place_joins :
  forall (K V W : Type) (kcmp : K -> K -> comparison) (a : list (K * V)) (b : list (K * W)),
    OrdLaws kcmp -> keys_sorted kcmp a -> keys_sorted kcmp b ->
    (forall f : K -> V -> W -> V * bool,
       let r := btm_inner_join_with kcmp a b f in
       keys_sorted kcmp r /\
       forall k, entry kcmp k r =
         match entry kcmp k a, entry kcmp k b with
         | Some (k1, x), Some (_, y) => if snd (f k1 x y) then Some (k1, fst (f k1 x y)) else None
         | _, _ => None
         end) /\
    (forall f : K -> V -> option W -> V * bool,
       let r := btm_left_join_with kcmp a b f in
       keys_sorted kcmp r /\
       forall k, entry kcmp k r =
         match entry kcmp k a with
         | Some (k1, x) =>
             let o := f k1 x (option_map snd (entry kcmp k b)) in if snd o then Some (k1, fst o) else None
         | None => None
         end) /\
    (forall (l : K -> V -> option W -> V * bool) (r : K -> W -> option V),
       let res := btm_outer_join_with kcmp a b l r in
       keys_sorted kcmp res /\
       forall k, entry kcmp k res =
         match entry kcmp k a, entry kcmp k b with
         | Some (k1, x), Some (k2, y) => let o := l k2 x (Some y) in if snd o then Some (k1, fst o) else None
         | Some (k1, x), None => let o := l k1 x None in if snd o then Some (k1, fst o) else None
         | None, Some (k2, y) => option_map (pair k2) (r k2 y)
         | None, None => None
         end).
Proof.
  intros K V W kcmp a b L Sa Sb.
  assert (EQ : forall X k k1 x (m : list (K * X)), entry kcmp k m = Some (k1, x) ->
    forall Y (m' : list (K * Y)), entry kcmp k1 m' = entry kcmp k m').
  { intros X k k1 x m Q Y m'. apply entry_Some_In in Q as [_ Q]. symmetry. now apply (entry_eq L). }
  split; [|split].
  - intros f r. unfold r, btm_inner_join_with. destruct (bretain_spec L a (fun k v => match btm_get kcmp b k with
      Some w => f k v w | None => (v, false) end) Sa) as (S1 & _ & E1).
    split; [assumption|]. intros k. rewrite E1. destruct (entry kcmp k a) as [[k1 x]|] eqn:Qa; [|reflexivity].
    rewrite (bget_entry (kcmp := kcmp)), (EQ _ _ _ _ _ Qa). destruct (entry kcmp k b) as [[k2 y]|]; cbn [option_map snd]; [|reflexivity].
    destruct (f k1 x y); reflexivity.
  - intros f r. unfold r, btm_left_join_with.
    destruct (bretain_spec L a (fun k v => f k v (btm_get kcmp b k)) Sa) as (S1 & _ & E1).
    split; [assumption|]. intros k. rewrite E1. destruct (entry kcmp k a) as [[k1 x]|] eqn:Qa; [|reflexivity].
    rewrite (bget_entry (kcmp := kcmp)), (EQ _ _ _ _ _ Qa). cbv zeta. now destruct (f _ _ _).
  - intros l r res. unfold res, btm_outer_join_with.
    match goal with |- context [fold_left ?s b a] => set (st := s) end.
    destruct (loop_spec L st (fun p o => match o with
        | Some (k1, x) => let o := l (fst p) x (Some (snd p)) in if snd o then Some (k1, fst o) else None
        | None => option_map (pair (fst p)) (r (fst p) (snd p)) end) b) with (m := a) as (S1 & E1); auto.
    { intros m [k w] _ Sm. unfold st. cbn [fst snd]. rewrite (bget_entry (kcmp := kcmp)).
      destruct (entry kcmp k m) as [[k1 x]|] eqn:Qm; cbn [option_map snd].
      - destruct (write_step L m k (l k x (Some w)) Sm ltac:(congruence)) as (S2 & E2).
        split; [exact S2|]. intros q. rewrite E2, Qm. reflexivity.
      - destruct (r k w) as [v|]; cbn [option_map].
        + destruct (binsert_spec L m k v Sm) as (S2 & _ & E2). split; [assumption|]. intros q. rewrite E2, Qm. reflexivity.
        + split; [assumption|]. intros q. destruct (kcmp q k) eqn:Eq; try reflexivity. rewrite (entry_eq L _ _ m Eq). exact Qm. }
    set (m := fold_left st b a) in *.
    destruct (bretain_spec L m (fun k v => match btm_get kcmp b k with Some _ => (v, true) | None => l k v None end) S1) as (S2 & _ & E2).
    split; [assumption|]. intros k. rewrite E2, E1.
    destruct (entry kcmp k b) as [[k2 y]|] eqn:Qb, (entry kcmp k a) as [[k1 x]|] eqn:Qa; cbn [fst snd option_map].
    + cbv zeta. destruct (l k2 x (Some y)) as [v' keep]. cbn [fst snd]. destruct keep; [|reflexivity].
      rewrite (bget_entry (kcmp := kcmp)), (EQ _ _ _ _ _ Qa), Qb. reflexivity.
    + destruct (r k2 y) as [v|]; cbn [option_map]; [|reflexivity].
      rewrite (bget_entry (kcmp := kcmp)), (EQ _ _ _ _ _ Qb), Qb. reflexivity.
    + rewrite (bget_entry (kcmp := kcmp)), (EQ _ _ _ _ _ Qa), Qb. cbn [option_map]. cbv zeta. now destruct (l k1 x None).
    + reflexivity.
Qed.
Print Assumptions C42_in_place_joins.
Example C42_witness :
  btm_outer_join_with Nat.compare ma mb (fun k v w => (match w with Some w => v + w | None => v end, negb (k =? 7)))
    (fun k w => if k =? 9 then None else Some w) = [(0,5);(1,10);(3,36);(4,40)] /\
  btm_inner_join_with Nat.compare ma mb (fun k v w => (w, true)) = [(3,6);(7,8)].
Proof. split; reflexivity. Qed.

(** ** C43 *)
(** False of the code: keys that are only in self survive, whatever the closure. *)
Theorem C43_right_join_with_refuted :
  exists (a b : list (nat * nat)) (k v : nat),
    keys_sorted Nat.compare a /\ keys_sorted Nat.compare b /\ entry Nat.compare k b = None /\
    forall fs fn, entry Nat.compare k (btm_right_join_with Nat.compare a b fs fn) = Some (k, v).
Proof.
  exists [(1,10)], [], 1, 10. split; [now apply sortedb_ok|]. split; [now apply sortedb_ok|].
  split; [reflexivity|]. intros fs fn. reflexivity.
Qed.
Print Assumptions C43_right_join_with_refuted.
(** What it does: common keys are updated or dropped, all other keys of self stay, keys only in that
    are never added. *)
Theorem C43_right_join_with_exact :
  forall (K V W : Type) (kcmp : K -> K -> comparison) (a : list (K * V)) (b : list (K * W))
    (fs : K -> V -> W -> V * bool) (fn : K -> W -> bool),
    OrdLaws kcmp -> keys_sorted kcmp a -> keys_sorted kcmp b ->
    let r := btm_right_join_with kcmp a b fs fn in
    keys_sorted kcmp r /\
    forall k, entry kcmp k r =
      match entry kcmp k a, entry kcmp k b with
      | Some (k1, x), Some (k2, y) => let o := fs k2 x y in if snd o then Some (k1, fst o) else None
      | Some (k1, x), None => Some (k1, x)
      | None, _ => None
      end.
Proof.
  intros K V W kcmp a b fs fn L Sa Sb r. unfold r, btm_right_join_with.
  match goal with |- context [fold_left ?s b a] => set (st := s) end.
  destruct (loop_spec L st (fun p o => match o with
      | Some (k1, x) => let o := fs (fst p) x (snd p) in if snd o then Some (k1, fst o) else None
      | None => None end) b) with (m := a) as (S1 & E1); auto.
  { intros m [k w] _ Sm. unfold st. cbn [fst snd]. rewrite (bget_entry (kcmp := kcmp)).
    destruct (entry kcmp k m) as [[k1 x]|] eqn:Qm; cbn [option_map snd].
    - destruct (write_step L m k (fs k x w) Sm ltac:(congruence)) as (S2 & E2).
      split; [exact S2|]. intros q. rewrite E2, Qm. reflexivity.
    - destruct (fn k w).
      + split; [assumption|]. intros q. destruct (kcmp q k) eqn:Eq; try reflexivity. rewrite (entry_eq L _ _ m Eq). exact Qm.
      + destruct (bremove_spec L m k Sm) as (S2 & _ & E2). split; assumption. }
  split; [assumption|]. intros k. rewrite E1.
  destruct (entry kcmp k b) as [[k2 y]|], (entry kcmp k a) as [[k1 x]|]; reflexivity.
Qed.
Print Assumptions C43_right_join_with_exact.
Example C43_witness :
  btm_right_join_with Nat.compare ma mb (fun k v w => (v + w, negb (k =? 7))) (fun _ _ => true) = [(1,10);(3,36);(4,40)].
Proof. reflexivity. Qed.

(** Property C105: how TotalVecMap calls the function it is given, when that function has effects
    and may panic. *)
From Verif Require Import VecMapHist PropSet PropMap TotalModel PropTotal.

(** *** Specification *)
(** Call [f] on the arguments, in order, until one call panics; the results of the calls. *)
Fixpoint calls {E X R} (f : clos E X R) (args : list X) (e : E) : E * cres (list R) :=
  match args with
  | [] => (e, Ret [])
  | x :: args' =>
      let (e1, r) := f e x in
      match r with
      | Throw => (e1, Throw)
      | Ret y =>
          let (e2, rs) := calls f args' e1 in
          (e2, match rs with Ret ys => Ret (y :: ys) | Throw => Throw end)
      end
  end.
(** The total map that maps the i-th key to the i-th value and every other key to the default:
    entries with the default value are not stored. *)
Definition total_of {K W} (weqb : W -> W -> bool) (keys : list K) (vals : list W) (default : W) : tmap K W :=
  TMap (filter (fun p => negb (weqb (snd p) default)) (combine keys vals)) default.
(** The outcome of an operation that calls [f] on the pair of defaults first and then on one
    argument for each key. *)
Definition total_outcome {E K W} (weqb : W -> W -> bool) (keys : list K) (r : E * cres (list W))
  : E * cres (tmap K W) :=
  match r with
  | (e, Ret (d :: vals)) => (e, Ret (total_of weqb keys vals d))
  | (e, _) => (e, Throw)
  end.

(** *** C105 *)
Theorem C105_map_values_calls :
  forall (K V W E : Type) (weqb : W -> W -> bool) (f : clos E V W) (m : tmap K V) (e : E),
    tmap_map_values weqb f m e =
    total_outcome weqb (map fst (tm_map m)) (calls f (tm_default m :: map snd (tm_map m)) e).
Proof.
  intros K V W E weqb f [m d0] e. unfold tmap_map_values. cbn [tm_map tm_default calls].
  destruct (f e d0) as [e1 [d|]]; [|reflexivity].
  assert (H : forall (l : list (K * V)) (e1 : E), filter_map_entries weqb f d l e1 =
    match calls f (map snd l) e1 with
    | (e2, Ret ws) => (e2, Ret (filter (fun p => negb (weqb (snd p) d)) (combine (map fst l) ws)))
    | (e2, Throw) => (e2, Throw)
    end).
  { induction l as [|[k v] l IH]; intros e0; cbn [filter_map_entries map fst snd calls combine filter]; [reflexivity|].
    destruct (f e0 v) as [e2 [w|]]; [|reflexivity]. rewrite IH.
    destruct (calls f (map snd l) e2) as [e3 [ws|]]; cbn [combine filter snd]; [|reflexivity].
    now destruct (weqb w d). }
  rewrite H. destruct (calls f (map snd m) e1) as [e2 [ws|]]; reflexivity.
Qed.
Print Assumptions C105_map_values_calls.

(** The keys of the calls of combine_ref are the keys of either map, each once, ascending; a key
    of both maps is taken from the left one. The arguments are the values of the two total maps. *)
Theorem C105_combine_ref_calls :
  forall (K V : Type) (kcmp : K -> K -> comparison) (strat : nat -> nat -> bool) (a b : tmap K V),
    OrdLaws kcmp -> keys_sorted kcmp (tm_map a) -> keys_sorted kcmp (tm_map b) ->
    exists keys : list K,
      sorted kcmp keys /\
      (forall k, In k keys <-> In k (map fst (tm_map a)) \/
                               (In k (map fst (tm_map b)) /\ ~ mem kcmp k (map fst (tm_map a)))) /\
      forall (E : Type) (veqb : V -> V -> bool) (f : clos E (V * V) V) (e : E),
        tmap_combine_ref kcmp strat veqb f a b e =
        Some (total_outcome veqb keys
                (calls f ((tm_default a, tm_default b) ::
                          map (fun k => (tmap_index kcmp a k, tmap_index kcmp b k)) keys) e)).
Proof.
  intros K V kcmp strat a b L Sa Sb.
  destruct (outer_args L strat (tm_map a) (tm_map b) Sa Sb) as (args & H1 & H2 & H3 & _).
  assert (KF : forall x, In x args -> kfind kcmp okey (okey x) args = Some x).
  { intros x Hx. apply (kfind_iff L); auto. split; [assumption|apply (cmp_refl L)]. }
  assert (NM : forall (m : list (K * V)) k, keys_sorted kcmp m -> entry kcmp k m = None <-> ~ mem kcmp k (map fst m)).
  { intros m k Sm. split.
    - intros Q (k' & Hk & C). apply in_map_iff in Hk as (p & <- & Hp).
      rewrite (entry_sorted L k m p Sm Hp C) in Q. discriminate.
    - intros N. destruct (entry kcmp k m) as [p|] eqn:Q; [|reflexivity]. exfalso. apply N.
      apply kfind_Some in Q as [Hp C]. exists (fst p). split; [now apply in_map|exact C]. }
  exists (map okey args). split; [assumption|]. split.
  - intros k. split.
    + intros Hk. apply in_map_iff in Hk as (x & <- & Hx). pose proof (KF x Hx) as Q. rewrite H2 in Q.
      destruct (entry kcmp (okey x) (tm_map a)) as [[k1 v]|] eqn:Qa.
      * left. apply kfind_Some in Qa as [Hp _]. apply in_map_iff. exists (k1, v). split; [|assumption].
        destruct (entry kcmp (okey x) (tm_map b)) as [[k2 w]|]; injection Q as <-; reflexivity.
      * destruct (entry kcmp (okey x) (tm_map b)) as [[k2 w]|] eqn:Qb; [|discriminate].
        right. split; [|now apply NM]. apply kfind_Some in Qb as [Hp _]. apply in_map_iff. exists (k2, w).
        split; [|assumption]. injection Q as <-. reflexivity.
    + intros Hk. assert (G : exists x, kfind kcmp okey k args = Some x /\ okey x = k).
      { rewrite H2. destruct Hk as [Hk|[Hk N]].
        - apply in_map_iff in Hk as ([k1 v] & <- & Hp). cbn [fst].
          rewrite (entry_sorted L k1 _ (k1, v) Sa Hp (cmp_refl L _)).
          destruct (entry kcmp k1 (tm_map b)) as [[k2 w]|]; eexists; (split; [reflexivity|reflexivity]).
        - apply NM in N; [|assumption]. rewrite N.
          apply in_map_iff in Hk as ([k2 w] & <- & Hp). cbn [fst].
          rewrite (entry_sorted L k2 _ (k2, w) Sb Hp (cmp_refl L _)). eexists. split; reflexivity. }
      destruct G as (x & Q & <-). apply kfind_Some in Q as [Hx _]. now apply in_map.
  - intros E veqb f e. unfold tmap_combine_ref. cbn [calls].
    destruct (f e (tm_default a, tm_default b)) as [e1 [d|]]; [|reflexivity].
    rewrite H3. match goal with |- context [serve ?g _ _ _] => set (F := g) end.
    assert (IX : forall x, In x args -> arg_of a b x = (tmap_index kcmp a (okey x), tmap_index kcmp b (okey x))).
    { intros x Hx. pose proof (KF x Hx) as Q. rewrite H2 in Q. rewrite !(index_entry L) by assumption.
      destruct (entry kcmp (okey x) (tm_map a)) as [[k1 v]|], (entry kcmp (okey x) (tm_map b)) as [[k2 w]|];
        try discriminate; injection Q as Q; rewrite <- Q; reflexivity. }
    assert (HF : forall e0 x, F e0 x = match f e0 (arg_of a b x) with
        | (e2, Ret r) => (e2, Ret (if negb (veqb r d) then Some r else None)) | (e2, Throw) => (e2, Throw) end)
      by (intros e0 []; reflexivity).
    clearbody F. clear H1 H2 H3 KF.
    assert (G : forall (l : list (ojarg K V V)) (e0 : E), incl l args -> served (serve F okey l e0) =
      match calls f (map (fun k => (tmap_index kcmp a k, tmap_index kcmp b k)) (map okey l)) e0 with
      | (e2, Ret ws) => Done (filter (fun p => negb (veqb (snd p) d)) (combine (map okey l) ws), e2)
      | (e2, Throw) => Unwound (fst (fst (serve F okey l e0)), e2)
      end).
    { induction l as [|x l IH]; intros e0 HI; cbn [serve map calls combine filter]; [reflexivity|].
      rewrite HF, IX by (apply HI; now left).
      destruct (f e0 _) as [e2 [w|]]; [|reflexivity].
      specialize (IH e2 (fun y Hy => HI y (or_intror Hy))).
      destruct (serve F okey l e2) as [[rs e3] ok]. cbn [fst served] in IH.
      destruct (calls f _ e2) as [e4 [ws|]]; destruct ok; cbn [served fst combine filter snd]; try discriminate;
        injection IH as <-; subst; destruct (veqb w d); reflexivity. }
    specialize (G args e1 (incl_refl _)). rewrite G. clear G.
    destruct (calls f _ e1) as [e2 [ws|]]; reflexivity.
Qed.
Print Assumptions C105_combine_ref_calls.

(** A panic of [f] is the only way not to return. Both operations take references: the operands
    are unchanged, so after a panic only the environment of [f] is left. *)
Theorem C105_panics_only_from_closure :
  forall (K V W E : Type) (kcmp : K -> K -> comparison) (strat : nat -> nat -> bool)
    (a b : tmap K V) (e : E),
    OrdLaws kcmp -> keys_sorted kcmp (tm_map a) -> keys_sorted kcmp (tm_map b) ->
    (forall (veqb : V -> V -> bool) (f : clos E (V * V) V), (forall e x, snd (f e x) <> Throw) ->
       exists e' r, tmap_combine_ref kcmp strat veqb f a b e = Some (e', Ret r) /\ keys_sorted kcmp (tm_map r)) /\
    (forall (weqb : W -> W -> bool) (f : clos E V W), (forall e x, snd (f e x) <> Throw) ->
       exists e' r, tmap_map_values weqb f a e = (e', Ret r) /\ keys_sorted kcmp (tm_map r)).
Proof.
  intros K V W E kcmp strat a b e L Sa Sb.
  assert (CA : forall X R (f : clos E X R), (forall e x, snd (f e x) <> Throw) -> forall l e0,
    exists e' ys, calls f l e0 = (e', Ret ys) /\ length ys = length l).
  { intros X R f H. induction l as [|x l IH]; intros e0; cbn [calls].
    - exists e0, []. split; reflexivity.
    - specialize (H e0 x). destruct (f e0 x) as [e1 [y|]]; [|cbn in H; congruence].
      destruct (IH e1) as (e2 & ys & E2 & HL). rewrite E2. exists e2, (y :: ys). split; [reflexivity|].
      cbn [length]. now rewrite HL. }
  assert (ST : forall U (ks : list K) (us : list U) p, sorted kcmp ks ->
     sorted kcmp (map fst (filter p (combine ks us)))).
  { intros U ks us p. revert us. induction ks as [|k ks IH]; intros us S; [constructor|].
    destruct us as [|u us]; cbn [combine filter map fst]; [constructor|].
    apply sorted_cons_inv in S as [S Hk]. destruct (p (k, u)); [|now apply IH]. cbn [map fst].
    apply sorted_cons; [now apply IH|].
    intros k' Hk'. apply Hk.
    apply in_map_iff in Hk' as ([k2 u2] & <- & Hk'). apply filter_In in Hk' as [Hk' _].
    now apply in_combine_l in Hk'. }
  split.
  - intros veqb f H. destruct (C105_combine_ref_calls K V kcmp strat a b L Sa Sb) as (keys & S & _ & Q).
    rewrite Q. destruct (CA _ _ f H ((tm_default a, tm_default b) :: map (fun k => (tmap_index kcmp a k, tmap_index kcmp b k)) keys) e)
      as (e' & ys & E1 & HL). rewrite E1.
    destruct ys as [|d ys]; [discriminate|]. exists e', (total_of veqb keys ys d). split; [reflexivity|].
    unfold keys_sorted, total_of. cbn [tm_map]. now apply ST.
  - intros weqb f H. rewrite C105_map_values_calls.
    destruct (CA _ _ f H (tm_default a :: map snd (tm_map a)) e) as (e' & ys & E1 & HL). rewrite E1.
    destruct ys as [|d ys]; [discriminate|]. exists e', (total_of weqb (map fst (tm_map a)) ys d). split; [reflexivity|].
    unfold keys_sorted, total_of. cbn [tm_map]. now apply ST.
Qed.
Print Assumptions C105_panics_only_from_closure.

Definition tA : tmap nat nat := TMap [(1, 5); (3, 6); (8, 4)] 0.
Definition tB : tmap nat nat := TMap [(3, 7); (4, 2)] 1.
(** logs its arguments; panics at the call with first argument 6 when [p] is set *)
Definition logging (p : bool) : clos (list (nat * nat)) (nat * nat) nat :=
  fun e x => (e ++ [x], if p && (fst x =? 6) then Throw else Ret (fst x * snd x)).
Example C105_witness :
  keys_sorted Nat.compare (tm_map tA) /\ keys_sorted Nat.compare (tm_map tB) /\
  tmap_combine_ref Nat.compare alt Nat.eqb (logging false) tA tB [] =
    Some ([(0, 1); (5, 1); (6, 7); (0, 2); (4, 1)], Ret (TMap [(1, 5); (3, 42); (8, 4)] 0)) /\
  tmap_combine_ref Nat.compare alt Nat.eqb (logging true) tA tB [] = Some ([(0, 1); (5, 1); (6, 7)], Throw) /\
  tmap_map_values Nat.eqb (fun e x => (e ++ [x], if x =? 6 then Throw else Ret (x / 5))) tA [] = ([0; 5; 6], Throw) /\
  tmap_map_values Nat.eqb (fun e x => (e ++ [x], Ret (x / 5))) tA [] = ([0; 5; 6; 4], Ret (TMap [(1, 1); (3, 1)] 0)) /\
  tmap_map_values Nat.eqb (fun e x => (e ++ [x], if x =? 0 then Throw else Ret x)) tA [] = ([0], Throw).
Proof. split; [now apply sortedb_ok|]. split; [now apply sortedb_ok|]. repeat split; reflexivity. Qed.

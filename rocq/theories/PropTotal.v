(** Properties C34-C40: TotalVecMap and TotalVecSet. *)
From Verif Require Import VecMapHist PropSet PropMap TotalModel.

(** the value equality is an equivalence (trait Eq) *)
Record EqLaws {V} (veqb : V -> V -> bool) : Prop := {
  veq_refl : forall x, veqb x x = true;
  veq_sym : forall x y, veqb x y = true -> veqb y x = true;
  veq_trans : forall x y z, veqb x y = true -> veqb y z = true -> veqb x z = true }.
(** the strict invariant of a TotalVecMap: strictly ordered keys, no mapping to the default *)
Definition tmap_ok {K V} (kcmp : K -> K -> comparison) (veqb : V -> V -> bool) (m : tmap K V) : Prop :=
  keys_sorted kcmp (tm_map m) /\ forall p, In p (tm_map m) -> veqb (snd p) (tm_default m) = false.
(** key types with infinitely many values *)
Definition infinite {T} (cmp : T -> T -> comparison) : Prop := forall l : list T, exists x, ~ mem cmp x l.
Lemma nat_infinite : infinite Nat.compare.
Proof.
  intros l. exists (S (list_max l)). intros (y & Hy & E). apply Nat.compare_eq in E. subst y.
  pose proof (list_max_le l (list_max l)) as [H _]. specialize (H (le_n _)). rewrite Forall_forall in H.
  specialize (H _ Hy). lia.
Qed.

Section TMap.
  Context {K : Type} {kcmp : K -> K -> comparison} (L : OrdLaws kcmp) (strat : nat -> nat -> bool).
  Context {V : Type} (veqb : V -> V -> bool).

  Lemma index_entry (m : tmap K V) k : keys_sorted kcmp (tm_map m) ->
    tmap_index kcmp m k = match entry kcmp k (tm_map m) with Some p => snd p | None => tm_default m end.
  Proof. intros S. unfold tmap_index. rewrite (get_spec L), lookup_entry by assumption. now destruct (entry _ _ _). Qed.

  (** a closure that may panic, served over a list of arguments *)
  Lemma serve_partial {X R E} (key : X -> K) (g : X -> option (option R)) (f : clos E X (option R)) args e :
    (forall e x, f e x = (e, match g x with Some o => Ret o | None => Throw end)) ->
    (exists x r, In x args /\ g x = None /\ serve f key args e = (r, e, false)) \/
    ((forall x, In x args -> g x <> None) /\
     serve f key args e = serve (pure_clos (fun x => match g x with Some o => o | None => None end)) key args e).
  Proof.
    intros Hf. induction args as [|x args IH]; cbn [serve].
    - right. split; [intros x []|reflexivity].
    - rewrite Hf. cbn [pure_clos]. unfold pure_clos at 1. destruct (g x) as [o|] eqn:Q.
      + destruct IH as [(y & r & Hy & Qy & E1)|[H E1]].
        * left. exists y. rewrite E1. eexists. split; [now right|]. split; [assumption|]. reflexivity.
        * right. split; [|now rewrite E1]. intros y [<-|Hy]; [congruence|auto].
      + left. exists x, []. split; [now left|]. auto.
  Qed.

  Definition arg_of (a b : tmap K V) (x : ojarg K V V) : V * V :=
    match x with
    | OJLeft _ v => (v, tm_default b)
    | OJRight _ w => (tm_default a, w)
    | OJBoth _ v w => (v, w)
    end.

  Lemma combine_cases {E} (op : V -> V -> option V) (a b : tmap K V) (e : E) :
    keys_sorted kcmp (tm_map a) -> keys_sorted kcmp (tm_map b) ->
    (tmap_combine_ref kcmp strat veqb (part_clos op) a b e = Some (e, Throw) /\
       (op (tm_default a) (tm_default b) = None \/
        exists k, op (tmap_index kcmp a k) (tmap_index kcmp b k) = None)) \/
    (exists r d, tmap_combine_ref kcmp strat veqb (part_clos op) a b e = Some (e, Ret (TMap r d)) /\
       op (tm_default a) (tm_default b) = Some d /\ keys_sorted kcmp r /\
       forall k, exists v, op (tmap_index kcmp a k) (tmap_index kcmp b k) = Some v /\
         match entry kcmp k r with
         | Some p => snd p = v /\ veqb v d = false
         | None => (veqb v d = true \/ v = d)
         end).
  Proof.
    intros Sa Sb. unfold tmap_combine_ref.
    destruct (outer_args L strat (tm_map a) (tm_map b) Sa Sb) as (args & H1 & H2 & H3 & _).
    unfold part_clos at 1 5. cbn [fst snd].
    destruct (op (tm_default a) (tm_default b)) as [d|] eqn:Qd; [|left; auto].
    match goal with |- context [vmap_outer_join kcmp strat ?f _ _ _] => set (F := f) end.
    rewrite H3.
    set (g := fun x => match op (fst (arg_of a b x)) (snd (arg_of a b x)) with
                       | Some r => Some (if negb (veqb r d) then Some r else None) | None => None end).
    assert (HF : forall e x, F e x = (e, match g x with Some o => Ret o | None => Throw end)).
    { intros e0 [k v|k w|k v w]; unfold F, g, part_clos, arg_of; cbn [fst snd];
        [destruct (op v (tm_default b))|destruct (op (tm_default a) w)|destruct (op v w)]; reflexivity. }
    assert (IX : forall k x, kfind kcmp okey k args = Some x ->
       arg_of a b x = (tmap_index kcmp a k, tmap_index kcmp b k)).
    { intros k x. rewrite H2, !index_entry by assumption.
      destruct (entry kcmp k (tm_map a)) as [[k1 v]|], (entry kcmp k (tm_map b)) as [[k2 w]|];
        intros [= <-]; reflexivity. }
    destruct (serve_partial okey g F args e HF) as [(x & r & Hx & Gx & E1)|[HG E1]]; rewrite E1.
    - left. split; [reflexivity|]. right. exists (okey x).
      assert (Q : kfind kcmp okey (okey x) args = Some x)
        by (apply (kfind_iff L); auto; split; [assumption|apply (cmp_refl L)]).
      apply IX in Q. unfold g in Gx. rewrite Q in Gx. cbn [fst snd] in Gx.
      destruct (op (tmap_index kcmp a (okey x)) (tmap_index kcmp b (okey x))); [discriminate|reflexivity].
    - right. destruct (serve_pure L okey (fun x => match g x with Some o => o | None => None end) args e H1)
        as (r & E2 & Sr & Er). rewrite E2. exists r, d.
      split; [reflexivity|]. split; [reflexivity|]. split; [assumption|]. intros k.
      rewrite Er. destruct (kfind kcmp okey k args) as [x|] eqn:Qx.
      + assert (Hx : In x args) by (apply kfind_Some in Qx; tauto).
        specialize (HG x Hx). apply IX in Qx. unfold g in *. rewrite Qx in *. cbn [fst snd] in *.
        destruct (op (tmap_index kcmp a k) (tmap_index kcmp b k)) as [v|]; [|congruence]. exists v. split; [reflexivity|].
        destruct (veqb v d) eqn:Qv; cbn; auto.
      + rewrite H2 in Qx. rewrite !index_entry by assumption. exists d.
        destruct (entry kcmp k (tm_map a)) as [[? ?]|], (entry kcmp k (tm_map b)) as [[? ?]|];
          try discriminate. auto.
  Qed.
End TMap.

(** ** C34: pointwise *)
(** [op] may panic ([None]). The combination returns exactly when [op] panics neither on the two
    default values nor on the values at any key, and then it is the pointwise combination. *)
Theorem C34_arith_pointwise :
  forall (K V E : Type) (kcmp : K -> K -> comparison) (strat : nat -> nat -> bool)
    (veqb : V -> V -> bool) (op : V -> V -> option V) (a b : tmap K V) (e : E),
    OrdLaws kcmp -> EqLaws veqb -> tmap_ok kcmp veqb a -> tmap_ok kcmp veqb b ->
    exists out, tmap_arith kcmp strat veqb op a b e = Some (e, out) /\
      (out = Throw <-> op (tm_default a) (tm_default b) = None \/
                       exists k, op (tmap_index kcmp a k) (tmap_index kcmp b k) = None) /\
      forall r, out = Ret r ->
        tmap_ok kcmp veqb r /\ op (tm_default a) (tm_default b) = Some (tm_default r) /\
        forall k, exists v, op (tmap_index kcmp a k) (tmap_index kcmp b k) = Some v /\
                            veqb (tmap_index kcmp r k) v = true.
Proof.
  intros K V E kcmp strat veqb op a b e L EL [Sa _] [Sb _].
  unfold tmap_arith. destruct (combine_cases L strat veqb op a b e Sa Sb) as [[E1 H]|(r & d & E1 & Qd & Sr & H)]; rewrite E1.
  - exists Throw. split; [reflexivity|]. split; [tauto|]. intros r [=].
  - exists (Ret (TMap r d)). split; [reflexivity|]. split.
    + split; [discriminate|]. intros [Q|[k Q]]; [congruence|]. destruct (H k) as (v & Qv & _). congruence.
    + intros r' [= <-]. split; [|split].
      * split; [assumption|]. cbn [tm_map tm_default]. intros p Hp.
        pose proof (entry_sorted L (fst p) r p Sr Hp (cmp_refl L _)) as Q.
        destruct (H (fst p)) as (v & _ & Hv). rewrite Q in Hv. destruct Hv as [<- Hv]. exact Hv.
      * exact Qd.
      * intros k. destruct (H k) as (v & Qv & Hv). exists v. split; [assumption|].
        rewrite (index_entry L) by assumption. cbn [tm_map tm_default].
        destruct (entry kcmp k r) as [p|].
        -- destruct Hv as [<- _]. apply (veq_refl _ EL).
        -- destruct Hv as [Hv| ->]; [now apply (veq_sym _ EL)|apply (veq_refl _ EL)].
Qed.
Print Assumptions C34_arith_pointwise.

(** a closure that does not panic *)
Theorem C34_combine_pointwise :
  forall (K V E : Type) (kcmp : K -> K -> comparison) (strat : nat -> nat -> bool)
    (veqb : V -> V -> bool) (f : V * V -> V) (a b : tmap K V) (e : E),
    OrdLaws kcmp -> EqLaws veqb -> tmap_ok kcmp veqb a -> tmap_ok kcmp veqb b ->
    exists r, tmap_combine_ref kcmp strat veqb (pure_clos f) a b e = Some (e, Ret r) /\
      tmap_ok kcmp veqb r /\ tm_default r = f (tm_default a, tm_default b) /\
      forall k, veqb (tmap_index kcmp r k) (f (tmap_index kcmp a k, tmap_index kcmp b k)) = true.
Proof.
  intros K V E kcmp strat veqb f a b e L EL Oa Ob.
  destruct (C34_arith_pointwise K V E kcmp strat veqb (fun x y => Some (f (x, y))) a b e L EL Oa Ob)
    as (out & E1 & HT & HR).
  assert (Q : tmap_combine_ref kcmp strat veqb (pure_clos f) a b e = Some (e, out)).
  { rewrite <- E1. unfold tmap_arith, tmap_combine_ref, part_clos, pure_clos. reflexivity. }
  rewrite Q. destruct out as [r|].
  - exists r. split; [reflexivity|]. destruct (HR r eq_refl) as (O & [= Hd] & H). split; [assumption|].
    split; [congruence|]. intros k. now destruct (H k) as (v & [= <-] & Hv).
  - destruct HT as [HT _]. destruct (HT eq_refl) as [Q1|[k Q1]]; discriminate.
Qed.
Print Assumptions C34_combine_pointwise.

(** supremum and infimum: every value of the result is the larger (smaller) of the two values *)
Theorem C34_supremum_infimum :
  forall (K V E : Type) (kcmp : K -> K -> comparison) (strat : nat -> nat -> bool)
    (vcmp : V -> V -> comparison) (a b : tmap K V) (e : E),
    OrdLaws kcmp -> OrdLaws vcmp -> tmap_ok kcmp (eqb_of vcmp) a -> tmap_ok kcmp (eqb_of vcmp) b ->
    exists s i,
      tmap_supremum kcmp strat vcmp a b e = Some (e, Ret s) /\ tmap_ok kcmp (eqb_of vcmp) s /\
      tmap_infimum kcmp strat vcmp a b e = Some (e, Ret i) /\ tmap_ok kcmp (eqb_of vcmp) i /\
      forall k,
        let x := tmap_index kcmp a k in let y := tmap_index kcmp b k in
        (vcmp (tmap_index kcmp s k) x = Eq /\ vcmp y x <> Gt \/
         vcmp (tmap_index kcmp s k) y = Eq /\ vcmp x y <> Gt) /\
        (vcmp (tmap_index kcmp i k) x = Eq /\ vcmp x y <> Gt \/
         vcmp (tmap_index kcmp i k) y = Eq /\ vcmp y x <> Gt).
Proof.
  intros K V E kcmp strat vcmp a b e L LV Oa Ob.
  assert (EL : EqLaws (eqb_of vcmp)).
  { split; unfold eqb_of.
    - intros x. now rewrite (cmp_refl LV).
    - intros x y. destruct (vcmp x y) eqn:Q; try discriminate. now rewrite (cmp_sym LV _ _ Q).
    - intros x y z. destruct (vcmp x y) eqn:Q; try discriminate. now rewrite (cmp_eq_l LV _ _ z Q). }
  assert (G : forall op : V -> V -> V, exists r,
    tmap_combine_ref kcmp strat (eqb_of vcmp) (pure_clos (fun p => op (fst p) (snd p))) a b e = Some (e, Ret r) /\
    tmap_ok kcmp (eqb_of vcmp) r /\
    forall k, vcmp (tmap_index kcmp r k) (op (tmap_index kcmp a k) (tmap_index kcmp b k)) = Eq).
  { intros op.
    destruct (C34_combine_pointwise K V E kcmp strat (eqb_of vcmp) (fun p => op (fst p) (snd p)) a b e L EL Oa Ob)
      as (r & E1 & O & _ & H). exists r. split; [assumption|]. split; [assumption|].
    intros k. specialize (H k). unfold eqb_of in H. cbn [fst snd] in H. now destruct (vcmp _ _). }
  destruct (G (std_max vcmp)) as (s & Es & Os & Hs), (G (std_min vcmp)) as (i & Ei & Oi & Hi).
  exists s, i. repeat (split; [assumption|]). intros k x y. specialize (Hs k). specialize (Hi k).
  fold x y in Hs, Hi. unfold std_max in Hs. unfold std_min in Hi.
  destruct (vcmp y x) eqn:Q; split; auto.
  - right. split; [assumption|]. rewrite (cmp_sym LV _ _ Q). discriminate.
  - left. split; [assumption|]. rewrite (cmp_sym LV _ _ Q). discriminate.
  - left. split; [assumption|discriminate].
  - right. split; [assumption|discriminate].
  - right. split; [assumption|]. apply (cmp_gt_lt LV) in Q. rewrite Q. discriminate.
  - left. split; [assumption|]. apply (cmp_gt_lt LV) in Q. rewrite Q. discriminate.
Qed.
Print Assumptions C34_supremum_infimum.

(** map_values and negation *)
Section MapV.
  Context {K : Type} {kcmp : K -> K -> comparison} (L : OrdLaws kcmp).
  Context {V W : Type} (weqb : W -> W -> bool).

  Lemma filter_map_spec {E} (g : V -> W) (d : W) (l : list (K * V)) (e : E) :
    filter_map_entries weqb (pure_clos g) d l e =
    (e, Ret (filter (fun p => negb (weqb (snd p) d)) (vmap_map_values g l))).
  Proof.
    induction l as [|[k v] l IH]; [reflexivity|]. cbn [filter_map_entries vmap_map_values map filter fst snd].
    unfold pure_clos at 1. rewrite IH. cbn [fst snd]. destruct (weqb (g v) d); reflexivity.
  Qed.
  Lemma filter_map_ok {E} (f : clos E V W) (d : W) (l : list (K * V)) : keys_sorted kcmp l -> forall e e' r,
    filter_map_entries weqb f d l e = (e', Ret r) ->
    keys_sorted kcmp r /\ (forall p, In p r -> weqb (snd p) d = false) /\
    (forall p, In p r -> In (fst p) (map fst l)).
  Proof.
    induction l as [|[k v] l IH]; intros S e e' r; cbn [filter_map_entries].
    - intros [= <- <-]. split; [apply sorted_nil|]. split; intros p [].
    - apply keys_sorted_cons in S as [S H]. destruct (f e v) as [e1 [w|]]; [|discriminate].
      destruct (filter_map_entries weqb f d l e1) as [e2 [r2|]] eqn:Q; [|discriminate].
      apply IH in Q as (S2 & D2 & K2); [|assumption]. intros [= <- <-].
      destruct (weqb w d) eqn:Qw; cbn [negb].
      + split; [assumption|]. split; [assumption|]. intros p Hp. right. auto.
      + split; [|split].
        * apply keys_sorted_cons. split; [assumption|]. intros k' v' Hp. apply K2 in Hp. cbn in Hp.
          apply in_map_iff in Hp as ([k2 v2] & <- & Hp). eapply H; eassumption.
        * intros p [<-|Hp]; auto.
        * intros p [<-|Hp]; [now left|right; auto].
  Qed.
End MapV.
Theorem C34_map_values_pointwise :
  forall (K V W E : Type) (kcmp : K -> K -> comparison) (veqb : V -> V -> bool) (weqb : W -> W -> bool)
    (g : V -> W) (m : tmap K V) (e : E),
    OrdLaws kcmp -> EqLaws weqb -> tmap_ok kcmp veqb m ->
    exists r, tmap_map_values weqb (pure_clos g) m e = (e, Ret r) /\
      tmap_ok kcmp weqb r /\ tm_default r = g (tm_default m) /\
      forall k, weqb (tmap_index kcmp r k) (g (tmap_index kcmp m k)) = true.
Proof.
  intros K V W E kcmp veqb weqb g m e L EL [S _]. unfold tmap_map_values. unfold pure_clos at 1.
  rewrite filter_map_spec. eexists. split; [reflexivity|].
  destruct (map_values_spec (kcmp := kcmp) g (tm_map m) S) as (S1 & F1).
  destruct (retain_spec L _ (fun p => negb (weqb (snd p) (g (tm_default m)))) S1) as (S2 & F2).
  split; [|split; [reflexivity|]].
  - split; [assumption|]. cbn [tm_map tm_default]. intros p Hp. apply filter_In in Hp as [_ Hp].
    now destruct (weqb _ _).
  - intros k. rewrite !(index_entry L) by assumption. cbn [tm_map tm_default].
    change (filter ?q ?l) with (vmap_retain l q). rewrite F2, F1.
    destruct (entry kcmp k (tm_map m)) as [[k1 v]|]; cbn [option_map snd fst].
    + destruct (weqb (g v) (g (tm_default m))) eqn:Q; cbn [negb snd].
      * now apply (veq_sym _ EL).
      * apply (veq_refl _ EL).
    + apply (veq_refl _ EL).
Qed.
Print Assumptions C34_map_values_pointwise.
(** -m: the pointwise negation; and TotalVecMap::default is V::default() everywhere *)
Theorem C34_neg_and_default_pointwise :
  forall (K V E : Type) (kcmp : K -> K -> comparison) (veqb : V -> V -> bool) (neg : V -> V) (vdefault : V)
    (m : tmap K V) (e : E),
    OrdLaws kcmp -> EqLaws veqb -> tmap_ok kcmp veqb m ->
    (exists r, tmap_neg veqb neg m e = (e, Ret r) /\
      tmap_ok kcmp veqb r /\ tm_default r = neg (tm_default m) /\
      forall k, veqb (tmap_index kcmp r k) (neg (tmap_index kcmp m k)) = true) /\
    tmap_ok kcmp veqb (tmap_default vdefault) /\
    forall k : K, tmap_index kcmp (tmap_default vdefault) k = vdefault.
Proof.
  intros K V E kcmp veqb neg vdefault m e L EL H. split; [|split].
  - exact (C34_map_values_pointwise K V V E kcmp veqb veqb neg m e L EL H).
  - split; [apply sorted_nil|]. intros p [].
  - intros k. reflexivity.
Qed.
Print Assumptions C34_neg_and_default_pointwise.
Definition tA : tmap nat nat := TMap [(1,10);(3,30);(7,70)] 5.
Definition tB : tmap nat nat := TMap [(0,6);(3,1);(7,0)] 2.
Definition safe_div (x y : nat) : option nat := if y =? 0 then None else Some (x / y).
Example C34_witness :
  tmap_ok Nat.compare Nat.eqb tA /\ tmap_ok Nat.compare Nat.eqb tB /\
  tmap_combine_ref Nat.compare alt Nat.eqb (pure_clos (fun p => fst p + snd p)) tA tB tt =
    Some (tt, Ret (TMap [(0,11);(1,12);(3,31);(7,70)] 7)) /\
  tmap_arith Nat.compare alt Nat.eqb safe_div tA tB tt = Some (tt, Throw) /\
  tmap_arith Nat.compare alt Nat.eqb safe_div tB tA tt = Some (tt, Ret (TMap [(0,1)] 0)) /\
  tmap_supremum Nat.compare alt Nat.compare tA tB tt = Some (tt, Ret (TMap [(0,6);(1,10);(3,30);(7,70)] 5)) /\
  tmap_map_values Nat.eqb (pure_clos (fun x => x mod 10)) tA tt = (tt, Ret (TMap [(1,0);(3,0);(7,0)] 5)).
Proof.
  split; [|split].
  - split; [now apply sortedb_ok|]. intros p [<-|[<-|[<-|[]]]]; reflexivity.
  - split; [now apply sortedb_ok|]. intros p [<-|[<-|[<-|[]]]]; reflexivity.
  - repeat split; reflexivity.
Qed.

(** ** C35: no default mappings, after any history *)
(** A program over variables holding TotalVecMaps. [C X Y] is the type of closures from X to Y. *)
Inductive tmcmd {K V : Type} (kcmp : K -> K -> comparison) (C : Type -> Type -> Type) :=
| TNew (v : nat) (m : {m : list (K * V) | keys_sorted kcmp m}) (d : V)  (* total_vec_map.rs:98 *)
| TConst (v : nat) (d : V)                                (* constant, From, Zero, One, Bounded, Default *)
| TDeser (v : nat) (l : list (K * V)) (d : V)             (* total_vec_map.rs:46 *)
| TClone (v w : nat)                                      (* total_vec_map.rs:55 *)
| TCombine (f : C (V * V)%type V) (v a b : nat)           (* v := a.combine_ref(&b, f) *)
| TMapV (f : C V V) (v a : nat).                          (* v := a.map_values(f) *)
Arguments TNew {K V kcmp C}. Arguments TConst {K V kcmp C}. Arguments TDeser {K V kcmp C}.
Arguments TClone {K V kcmp C}. Arguments TCombine {K V kcmp C}. Arguments TMapV {K V kcmp C}.

Section TMapHist.
  Context {K V E : Type} (kcmp : K -> K -> comparison) (strat : nat -> nat -> bool) (veqb : V -> V -> bool).
  Context (C : Type -> Type -> Type) (interp : forall X Y, C X Y -> clos E X Y).
  (** one step; a panicking closure leaves the variables as they were ([false]: caught a panic) *)
  Definition tmstep (s : (nat -> tmap K V) * E) (c : tmcmd kcmp C) : option ((nat -> tmap K V) * E * bool) :=
    let '(st, e) := s in
    match c with
    | TNew v m d => Some (upd st v (tmap_new veqb (proj1_sig m) d), e, true)
    | TConst v d => Some (upd st v (tmap_constant d), e, true)
    | TDeser v l d => Some (upd st v (tmap_deserialize kcmp veqb (l, d)), e, true)
    | TClone v w => Some (upd st v (st w), e, true)
    | TCombine f v a b =>
        match tmap_combine_ref kcmp strat veqb (interp _ _ f) (st a) (st b) e with
        | Some (e', Ret r) => Some (upd st v r, e', true)
        | Some (e', Throw) => Some (st, e', false)
        | None => None
        end
    | TMapV f v a =>
        match tmap_map_values veqb (interp _ _ f) (st a) e with
        | (e', Ret r) => Some (upd st v r, e', true)
        | (e', Throw) => Some (st, e', false)
        end
    end.
  Fixpoint tmrun (s : (nat -> tmap K V) * E) (cs : list (tmcmd kcmp C)) : option ((nat -> tmap K V) * E) :=
    match cs with
    | [] => Some s
    | c :: cs' => match tmstep s c with Some (s', _) => tmrun s' cs' | None => None end
    end.
End TMapHist.

Section TMapHistFacts.
  Context {K V E : Type} {kcmp : K -> K -> comparison} (L : OrdLaws kcmp) (strat : nat -> nat -> bool).
  Context (veqb : V -> V -> bool).

  Lemma new_ok m d : keys_sorted kcmp m -> tmap_ok kcmp veqb (tmap_new veqb m d).
  Proof.
    intros S. split; [now apply (retain_spec L)|]. cbn. intros p Hp. apply filter_In in Hp as [_ Hp].
    now destruct (veqb _ _).
  Qed.
  Lemma const_ok d : tmap_ok kcmp veqb (@tmap_constant K V d).
  Proof. split; [apply sorted_nil|intros p []]. Qed.
  Lemma combine_ok (f : clos E (V * V) V) a b e : tmap_ok kcmp veqb a -> tmap_ok kcmp veqb b ->
    exists e' o, tmap_combine_ref kcmp strat veqb f a b e = Some (e', o) /\
      forall r, o = Ret r -> tmap_ok kcmp veqb r.
  Proof.
    intros [Sa _] [Sb _]. unfold tmap_combine_ref.
    destruct (f e (tm_default a, tm_default b)) as [e1 [d|]]; [|do 2 eexists; split; [reflexivity|discriminate]].
    match goal with |- context [vmap_outer_join kcmp strat ?g _ _ _] => set (F := g) end.
    destruct (outer_args L strat (tm_map a) (tm_map b) Sa Sb) as (args & H1 & _ & H3 & _). rewrite H3.
    destruct (served_valid kcmp L okey F args e1 H1) as (r & e' & D & S & P).
    destruct D as [-> | [-> _]]; do 2 eexists; (split; [reflexivity|]); [|discriminate].
    intros r' [= <-]. split; [assumption|]. cbn [tm_map tm_default]. intros p Hp.
    destruct (P p Hp) as (x & e2 & e3 & _ & _ & Q).
    assert (G : forall X, match X with (e4, Ret r0) => (e4, Ret (if negb (veqb r0 d) then Some r0 else None))
                          | (e4, Throw) => (e4, Throw) end = (e3, Ret (Some (snd p))) -> veqb (snd p) d = false).
    { intros [e4 [r0|]]; [|discriminate]. intros [= _ Q1]. destruct (veqb r0 d) eqn:Q2; [discriminate|].
      cbn in Q1. congruence. }
    exact (G _ Q).
  Qed.
  Lemma mapv_ok (f : clos E V V) a e e' r : tmap_ok kcmp veqb a ->
    tmap_map_values veqb f a e = (e', Ret r) -> tmap_ok kcmp veqb r.
  Proof.
    intros [Sa _]. unfold tmap_map_values. destruct (f e (tm_default a)) as [e1 [d|]]; [|discriminate].
    destruct (filter_map_entries veqb f d (tm_map a) e1) as [e2 [r2|]] eqn:Q; [|discriminate].
    intros [= <- <-]. destruct (filter_map_ok (kcmp := kcmp) veqb f d (tm_map a) Sa _ _ _ Q) as (S2 & D2 & _).
    split; assumption.
  Qed.
  Lemma upd_ok {X} (P : X -> Prop) st v x : (forall w, P (st w)) -> P x -> forall w, P (upd st v x w).
  Proof. intros H Hx w. unfold upd. destruct (w =? v); auto. Qed.
End TMapHistFacts.

Theorem C35_history_no_default_mappings :
  forall (K V E : Type) (kcmp : K -> K -> comparison) (strat : nat -> nat -> bool) (veqb : V -> V -> bool)
    (d0 : V) (e : E) (cs : list (tmcmd (V := V) kcmp (clos E))),
    OrdLaws kcmp ->
    exists st e', tmrun kcmp strat veqb (clos E) (fun _ _ f => f) (fun _ => tmap_constant d0, e) cs = Some (st, e') /\
      forall v, keys_sorted kcmp (tmap_non_default_mappings (st v)) /\
        forall p, In p (tmap_non_default_mappings (st v)) -> veqb (snd p) (tm_default (st v)) = false.
Proof.
  intros K V E kcmp strat veqb d0 e cs L.
  enough (G : forall st e, (forall v, tmap_ok kcmp veqb (st v)) ->
    exists st' e', tmrun kcmp strat veqb (clos E) (fun _ _ f => f) (st, e) cs = Some (st', e') /\
      forall v, tmap_ok kcmp veqb (st' v)) by (apply G; intros v; apply (const_ok (kcmp := kcmp))).
  induction cs as [|c cs IH]; intros st e0 H; [exists st, e0; auto|]. cbn [tmrun].
  assert (exists st1 e1 b, tmstep kcmp strat veqb (clos E) (fun _ _ f => f) (st, e0) c = Some (st1, e1, b) /\
    forall v, tmap_ok kcmp veqb (st1 v)) as (st1 & e1 & b & -> & H1); [|now apply IH].
  destruct c as [v [m Sm] d|v d|v l d|v w|f v a b|f v a]; cbn [tmstep].
  - do 3 eexists. split; [reflexivity|]. apply upd_ok; [assumption|]. now apply (new_ok L).
  - do 3 eexists. split; [reflexivity|]. apply upd_ok; [assumption|]. apply (const_ok (kcmp := kcmp)).
  - do 3 eexists. split; [reflexivity|]. apply upd_ok; [assumption|]. apply (new_ok L).
    apply (visit_map_spec L).
  - do 3 eexists. split; [reflexivity|]. now apply upd_ok.
  - destruct (combine_ok L strat veqb f (st a) (st b) e0 (H a) (H b)) as (e' & o & -> & R).
    destruct o as [r|]; do 3 eexists; (split; [reflexivity|]); auto. apply upd_ok; auto.
  - destruct (tmap_map_values veqb f (st a) e0) as [e' [r|]] eqn:Q; do 3 eexists; (split; [reflexivity|]); auto.
    apply upd_ok; [assumption|]. now apply (mapv_ok (kcmp := kcmp) veqb f (st a) e0 e').
Qed.
Print Assumptions C35_history_no_default_mappings.

(** [new(map, d)] and a deserialized map have the value stored in the map, or the default *)
Theorem C35_new_index :
  forall (K V : Type) (kcmp : K -> K -> comparison) (veqb : V -> V -> bool) (m : list (K * V)) (d : V) (k : K),
    OrdLaws kcmp -> EqLaws veqb -> keys_sorted kcmp m ->
    veqb (tmap_index kcmp (tmap_new veqb m d) k) (match vmap_get kcmp m k with Some v => v | None => d end) = true /\
    (forall l, veqb (tmap_index kcmp (tmap_deserialize kcmp veqb (l, d)) k)
                    (match lookup kcmp k l with Some v => v | None => d end) = true) /\
    tmap_deserialize kcmp veqb (tmap_serialize (tmap_new veqb m d)) = tmap_new veqb m d.
Proof.
  intros K V kcmp veqb m d k L EL S.
  assert (G : forall m, keys_sorted kcmp m ->
    veqb (tmap_index kcmp (tmap_new veqb m d) k) (match lookup kcmp k m with Some v => v | None => d end) = true).
  { clear m S. intros m S. destruct (retain_spec L m (fun p => negb (veqb (snd p) d)) S) as (S1 & F).
    rewrite (index_entry L) by exact S1. cbn [tmap_new tm_map tm_default]. rewrite F, lookup_entry.
    destruct (entry kcmp k m) as [[k1 v]|]; cbn [option_map snd].
    - destruct (veqb v d) eqn:Q; cbn; [now apply (veq_sym _ EL)|apply (veq_refl _ EL)].
    - apply (veq_refl _ EL). }
  split; [|split].
  - rewrite (get_spec L) by assumption. now apply G.
  - intros l. unfold tmap_deserialize. cbn [fst snd]. destruct (visit_map_spec L l) as (S1 & F).
    specialize (G _ S1). rewrite lookup_entry in *. now rewrite F in G.
  - unfold tmap_deserialize, tmap_serialize, vmap_serialize. cbn [fst snd tmap_new tm_map tm_default].
    destruct (retain_spec L m (fun p => negb (veqb (snd p) d)) S) as (S1 & F1).
    destruct (visit_map_spec L (vmap_retain m (fun p => negb (veqb (snd p) d)))) as (S2 & F2).
    destruct (retain_spec L _ (fun p => negb (veqb (snd p) d)) S2) as (S3 & F3).
    unfold tmap_new. f_equal. apply (entry_ext L); [exact S3|exact S1|]. intros q. rewrite F3, F2, F1.
    destruct (entry kcmp q m) as [p|]; [|reflexivity]. destruct (negb (veqb (snd p) d)) eqn:Q; [|reflexivity].
    now rewrite Q.
Qed.
Print Assumptions C35_new_index.

(** refinement: the same program run on functions from keys to values; closures respect the
    equality of V *)
Definition fn2 (X Y : Type) := X -> Y.
Definition pinterp : forall X Y, fn2 X Y -> clos unit X Y := fun X Y f => pure_clos f.
Definition atm_step {K V} (kcmp : K -> K -> comparison) (st : nat -> K -> V) (c : tmcmd (V := V) kcmp fn2) : nat -> K -> V :=
  match c with
  | TNew v m d => upd st v (fun k => match lookup kcmp k (proj1_sig m) with Some x => x | None => d end)
  | TConst v d => upd st v (fun _ => d)
  | TDeser v l d => upd st v (fun k => match lookup kcmp k l with Some x => x | None => d end)
  | TClone v w => upd st v (st w)
  | TCombine f v a b => upd st v (fun k => f (st a k, st b k))
  | TMapV f v a => upd st v (fun k => f (st a k))
  end.
Definition respects {V} (veqb : V -> V -> bool) {K kcmp} (c : tmcmd (K := K) (V := V) kcmp fn2) : Prop :=
  match c with
  | TCombine f _ _ _ => forall x x' y y', veqb x x' = true -> veqb y y' = true -> veqb (f (x, y)) (f (x', y')) = true
  | TMapV f _ _ => forall x x', veqb x x' = true -> veqb (f x) (f x') = true
  | _ => True
  end.
Theorem C35_refines_functions :
  forall (K V : Type) (kcmp : K -> K -> comparison) (strat : nat -> nat -> bool) (veqb : V -> V -> bool)
    (d0 : V) (cs : list (tmcmd (V := V) kcmp fn2)),
    OrdLaws kcmp -> EqLaws veqb -> Forall (respects veqb) cs ->
    exists st, tmrun kcmp strat veqb fn2 pinterp (fun _ => tmap_constant d0, tt) cs = Some (st, tt) /\
      forall v k, veqb (tmap_index kcmp (st v) k)
                       (fold_left (atm_step kcmp) cs (fun _ _ => d0) v k) = true.
Proof.
  intros K V kcmp strat veqb d0 cs L EL W.
  enough (G : forall st ast, (forall v, tmap_ok kcmp veqb (st v)) ->
     (forall v k, veqb (tmap_index kcmp (st v) k) (ast v k) = true) ->
    exists st', tmrun kcmp strat veqb fn2 pinterp (st, tt) cs = Some (st', tt) /\
      forall v k, veqb (tmap_index kcmp (st' v) k) (fold_left (atm_step kcmp) cs ast v k) = true).
  { apply G; [intros v; apply (const_ok (kcmp := kcmp))|]. intros v k. apply (veq_refl _ EL). }
  induction cs as [|c cs IH]; intros st ast H A; [exists st; auto|]. cbn [tmrun fold_left].
  inversion W as [|? ? Wc Wcs]; subst.
  assert (exists st1 b, tmstep kcmp strat veqb fn2 pinterp (st, tt) c = Some (st1, tt, b) /\
    (forall v, tmap_ok kcmp veqb (st1 v)) /\
    forall v k, veqb (tmap_index kcmp (st1 v) k) (atm_step kcmp ast c v k) = true)
    as (st1 & b & -> & H1 & A1); [|now apply IH].
  assert (AU : forall v m p, (forall k, veqb (tmap_index kcmp m k) (p k) = true) ->
    forall w k, veqb (tmap_index kcmp (upd st v m w) k) (upd ast v p w k) = true).
  { intros v m p Q w k. unfold upd. destruct (w =? v); auto. }
  destruct c as [v [m Sm] d|v d|v l d|v w|f v a b|f v a]; cbn [tmstep atm_step proj1_sig].
  - do 2 eexists. split; [reflexivity|]. split; [apply upd_ok; [assumption|]; now apply (new_ok L)|].
    apply AU. intros k. rewrite <- (get_spec L) by assumption. now apply C35_new_index.
  - do 2 eexists. split; [reflexivity|]. split; [apply upd_ok; [assumption|]; apply (const_ok (kcmp := kcmp))|].
    apply AU. intros k. apply (veq_refl _ EL).
  - do 2 eexists. split; [reflexivity|]. split.
    + apply upd_ok; [assumption|]. apply (new_ok L). apply (visit_map_spec L).
    + apply AU. intros k. apply (C35_new_index K V kcmp veqb [] d k L EL sorted_nil).
  - do 2 eexists. split; [reflexivity|]. split; [now apply upd_ok|]. now apply AU.
  - destruct (C34_combine_pointwise K V unit kcmp strat veqb f (st a) (st b) tt L EL (H a) (H b))
      as (r & E1 & O & _ & P). unfold pinterp. rewrite E1.
    do 2 eexists. split; [reflexivity|]. split; [now apply upd_ok|]. apply AU. intros k.
    eapply (veq_trans _ EL); [apply P|]. cbn in Wc. apply Wc; apply A.
  - destruct (C34_map_values_pointwise K V V unit kcmp veqb veqb f (st a) tt L EL (H a))
      as (r & E1 & O & _ & P). unfold pinterp. rewrite E1.
    do 2 eexists. split; [reflexivity|]. split; [now apply upd_ok|]. apply AU. intros k.
    eapply (veq_trans _ EL); [apply P|]. cbn in Wc. apply Wc; apply A.
Qed.
Print Assumptions C35_refines_functions.
Definition demo_t : list (tmcmd (V := nat) Nat.compare fn2) :=
  [TDeser 0 [(3,1);(1,1);(3,2);(4,0)] 0; TConst 1 2;
   TCombine (C := fn2) (fun p : nat * nat => fst p + snd p) 2 0 1; TMapV (C := fn2) (fun x => x - 2) 3 2; TClone 4 3].
Example C35_witness :
  Forall (respects Nat.eqb) demo_t /\
  exists st, tmrun Nat.compare alt Nat.eqb fn2 pinterp (fun _ => tmap_constant 9, tt) demo_t = Some (st, tt) /\
    st 2 = TMap [(1,3);(3,3)] 2 /\ st 4 = TMap [(1,1);(3,1)] 0 /\ st 7 = TMap [] 9.
Proof.
  split.
  - repeat constructor; cbn.
    + intros x x' y y' H1 H2. apply Nat.eqb_eq in H1, H2. subst. apply Nat.eqb_refl.
    + intros x x' H1. apply Nat.eqb_eq in H1. subst. apply Nat.eqb_refl.
  - eexists. vm_compute. repeat split.
Qed.

(** ** C36: equality *)
(** False of the code as stated: == and Hash ignore the default value. *)
Theorem C36_eq_extensional_refuted :
  exists a b : tmap nat nat,
    tmap_ok Nat.compare Nat.eqb a /\ tmap_ok Nat.compare Nat.eqb b /\
    tmap_eqb Nat.compare Nat.eqb a b = true /\
    (forall k, tmap_index Nat.compare a k <> tmap_index Nat.compare b k) /\
    tmap_cmp Nat.compare Nat.compare a b <> Eq.
Proof.
  exists (tmap_constant 0), (tmap_constant 1).
  split; [apply (const_ok (kcmp := Nat.compare))|]. split; [apply (const_ok (kcmp := Nat.compare))|].
  split; [reflexivity|]. split; [intros k; cbn; discriminate|discriminate].
Qed.
Print Assumptions C36_eq_extensional_refuted.

(** What holds: among maps with the same default (or over an infinite key type and [Ord::cmp])
    equality is extensional. *)
(** what == does decide, whatever the defaults: that the same keys are stored, with == values *)
Theorem C36_eq_exact :
  forall (K V : Type) (kcmp : K -> K -> comparison) (veqb : V -> V -> bool) (a b : tmap K V),
    OrdLaws kcmp -> tmap_ok kcmp veqb a -> tmap_ok kcmp veqb b ->
    (tmap_eqb kcmp veqb a b = true <->
     forall k, match entry kcmp k (tmap_non_default_mappings a), entry kcmp k (tmap_non_default_mappings b) with
               | Some x, Some y => veqb (snd x) (snd y) = true
               | None, None => True
               | _, _ => False
               end).
Proof.
  intros K V kcmp veqb a b L [Sa Na] [Sb Nb]. unfold tmap_eqb.
  rewrite (C65_map_eq_extensional K V kcmp veqb _ _ L Sa Sb).
  assert (Q : forall k, match vmap_get kcmp (tm_map a) k, vmap_get kcmp (tm_map b) k with
                        | Some x, Some y => veqb x y = true | None, None => True | _, _ => False end <->
              match entry kcmp k (tmap_non_default_mappings a), entry kcmp k (tmap_non_default_mappings b) with
              | Some x, Some y => veqb (snd x) (snd y) = true | None, None => True | _, _ => False end).
  { intros k. rewrite !(get_spec L), !lookup_entry by assumption. unfold tmap_non_default_mappings.
    destruct (entry kcmp k (tm_map a)), (entry kcmp k (tm_map b)); reflexivity. }
  split; intros H k; apply Q, H.
Qed.
Print Assumptions C36_eq_exact.
Theorem C36_eq_same_default_partial :
  forall (K V : Type) (kcmp : K -> K -> comparison) (veqb : V -> V -> bool) (a b : tmap K V),
    OrdLaws kcmp -> EqLaws veqb -> tmap_ok kcmp veqb a -> tmap_ok kcmp veqb b ->
    veqb (tm_default a) (tm_default b) = true ->
    (tmap_eqb kcmp veqb a b = true <-> forall k, veqb (tmap_index kcmp a k) (tmap_index kcmp b k) = true).
Proof.
  intros K V kcmp veqb a b L EL [Sa Na] [Sb Nb] D. unfold tmap_eqb.
  rewrite (C65_map_eq_extensional K V kcmp veqb _ _ L Sa Sb). unfold tmap_index.
  split; intros H k; specialize (H k).
  - destruct (vmap_get kcmp (tm_map a) k), (vmap_get kcmp (tm_map b) k); tauto.
  - rewrite !(get_spec L), !lookup_entry in * by assumption.
    destruct (entry kcmp k (tm_map a)) as [p|] eqn:Qa, (entry kcmp k (tm_map b)) as [q|] eqn:Qb;
      cbn [option_map] in *; auto.
    + apply entry_Some_In in Qa as [Qa _]. specialize (Na p Qa).
      assert (veqb (snd p) (tm_default a) = true); [|congruence].
      eapply (veq_trans _ EL); [exact H|]. now apply (veq_sym _ EL).
    + apply entry_Some_In in Qb as [Qb _]. specialize (Nb q Qb).
      assert (veqb (snd q) (tm_default b) = true); [|congruence].
      eapply (veq_trans _ EL); [apply (veq_sym _ EL), H|assumption].
Qed.
Print Assumptions C36_eq_same_default_partial.
(** over an infinite key type: two maps with the same value everywhere are ==, and [cmp] is Equal
    exactly when the maps have the same value at every key *)
Theorem C36_infinite_keys_partial :
  forall (K V : Type) (kcmp : K -> K -> comparison) (vcmp : V -> V -> comparison) (a b : tmap K V),
    OrdLaws kcmp -> OrdLaws vcmp -> infinite kcmp ->
    tmap_ok kcmp (eqb_of vcmp) a -> tmap_ok kcmp (eqb_of vcmp) b ->
    ((forall k, vcmp (tmap_index kcmp a k) (tmap_index kcmp b k) = Eq) -> tmap_eqb kcmp (eqb_of vcmp) a b = true) /\
    (tmap_cmp kcmp vcmp a b = Eq <-> forall k, vcmp (tmap_index kcmp a k) (tmap_index kcmp b k) = Eq).
Proof.
  intros K V kcmp vcmp a b L LV Inf Oa Ob.
  assert (EB : forall x y, eqb_of vcmp x y = true <-> vcmp x y = Eq).
  { intros x y. unfold eqb_of. destruct (vcmp x y); split; congruence. }
  assert (EL : EqLaws (eqb_of vcmp)).
  { split.
    - intros x. apply EB, (cmp_refl LV).
    - intros x y H. apply EB in H. apply EB. now apply (cmp_sym LV).
    - intros x y z H1 H2. apply EB in H1, H2. apply EB. now rewrite (cmp_eq_l LV _ _ z H1). }
  assert (DEF : (forall k, vcmp (tmap_index kcmp a k) (tmap_index kcmp b k) = Eq) ->
    vcmp (tm_default a) (tm_default b) = Eq).
  { intros H. destruct (Inf (map fst (tm_map a) ++ map fst (tm_map b))) as [k Hk].
    specialize (H k). rewrite !(index_entry L) in H by (apply Oa || apply Ob).
    destruct (entry kcmp k (tm_map a)) as [p|] eqn:Qa.
    { apply entry_Some_In in Qa as [Hp Ep]. exfalso. apply Hk. apply mem_app. left.
      exists (fst p). split; [now apply in_map|assumption]. }
    destruct (entry kcmp k (tm_map b)) as [p|] eqn:Qb; [|exact H].
    apply entry_Some_In in Qb as [Hp Ep]. exfalso. apply Hk. apply mem_app. right.
    exists (fst p). split; [now apply in_map|assumption]. }
  assert (EXT : vcmp (tm_default a) (tm_default b) = Eq -> tmap_eqb kcmp (eqb_of vcmp) a b = true <->
     forall k, vcmp (tmap_index kcmp a k) (tmap_index kcmp b k) = Eq).
  { intros D. rewrite (C36_eq_same_default_partial K V kcmp (eqb_of vcmp) a b L EL Oa Ob) by now apply EB.
    split; intros H k; apply EB, H. }
  split; [intros H; now apply EXT; auto|].
  destruct (C65_map_ord_hash K V kcmp vcmp L LV) as (_ & CE & _). unfold tmap_cmp.
  specialize (CE (tm_map a) (tm_map b)). unfold tmap_eqb in EXT. split.
  - destruct (vmap_cmp kcmp vcmp (tm_map a) (tm_map b)); try discriminate. intros D. apply EXT; [assumption|].
    now apply CE.
  - intros H. assert (D := DEF H). apply EXT in H; [|assumption]. apply CE in H. now rewrite H.
Qed.
Print Assumptions C36_infinite_keys_partial.
(** Eq and Hash agree with each other; Ord is a total order and finer than == *)
Theorem C36_hash_ord_partial :
  forall (K V : Type) (kcmp : K -> K -> comparison) (vcmp : V -> V -> comparison),
    OrdLaws kcmp -> OrdLaws vcmp ->
    OrdLaws (tmap_cmp kcmp vcmp) /\
    (forall a b, tmap_cmp kcmp vcmp a b = Eq -> tmap_eqb kcmp (eqb_of vcmp) a b = true) /\
    (forall (H : Type) (hl : nat -> list H) (hk : K -> list H) (hv : V -> list H) a b,
       (forall x y, kcmp x y = Eq -> hk x = hk y) -> (forall x y, vcmp x y = Eq -> hv x = hv y) ->
       tmap_eqb kcmp (eqb_of vcmp) a b = true -> tmap_hash hl hk hv a = tmap_hash hl hk hv b).
Proof.
  intros K V kcmp vcmp L LV. destruct (C65_map_ord_hash K V kcmp vcmp L LV) as (LM & CE & HH).
  split; [|split].
  - destruct (C30_vecset_from_vecmap _ V (vmap_cmp kcmp vcmp) vcmp [] LM LV sorted_nil) as ([LP1 LP2] & _).
    split.
    + intros x y. exact (LP1 (tm_map x, tm_default x) (tm_map y, tm_default y)).
    + intros x y z.
      exact (LP2 (tm_map x, tm_default x) (tm_map y, tm_default y) (tm_map z, tm_default z)).
  - intros a b. unfold tmap_cmp, tmap_eqb. rewrite <- CE. destruct (vmap_cmp _ _ _ _); congruence.
  - intros H hl hk hv a b H1 H2 H3. unfold tmap_hash. now apply HH.
Qed.
Print Assumptions C36_hash_ord_partial.
Example C36_witness :
  infinite Nat.compare /\ tmap_ok Nat.compare Nat.eqb tA /\
  tmap_eqb Nat.compare Nat.eqb tA (tmap_deserialize Nat.compare Nat.eqb ([(7,70);(4,5);(1,10);(3,30)], 5)) = true /\
  tmap_cmp Nat.compare Nat.compare tA tB = Gt.
Proof. split; [exact nat_infinite|]. split; [apply C34_witness|]. split; reflexivity. Qed.

(** ** C66: is_zero / is_one decide whether the map is constantly zero / one (infinite key type) *)
Theorem C66_is_zero_is_one :
  forall (K V : Type) (kcmp : K -> K -> comparison) (veqb : V -> V -> bool) (c : V) (m : tmap K V),
    OrdLaws kcmp -> EqLaws veqb -> infinite kcmp -> tmap_ok kcmp veqb m ->
    (tmap_is_const (fun v => veqb v c) m = true <-> forall k, veqb (tmap_index kcmp m k) c = true).
Proof.
  intros K V kcmp veqb c m L EL Inf [S N]. unfold tmap_is_const. rewrite andb_true_iff. split.
  - intros [E D] k. rewrite (index_entry L) by assumption. destruct (tm_map m); [exact D|discriminate].
  - intros H. assert (D : veqb (tm_default m) c = true).
    { destruct (Inf (map fst (tm_map m))) as [k Hk]. specialize (H k). rewrite (index_entry L) in H by assumption.
      destruct (entry kcmp k (tm_map m)) as [p|] eqn:Q; [|exact H]. exfalso. apply Hk.
      apply entry_Some_In in Q as [Hp Ep]. exists (fst p). split; [now apply in_map|assumption]. }
    split; [|exact D]. destruct (tm_map m) as [|p l] eqn:Em; [reflexivity|exfalso].
    specialize (N p (or_introl eq_refl)). specialize (H (fst p)).
    rewrite (index_entry L) in H by now rewrite Em. rewrite Em in H.
    unfold entry in H. cbn [find] in H. unfold eqb_of in H. rewrite (cmp_refl L) in H.
    assert (veqb (snd p) (tm_default m) = true); [|congruence].
    eapply (veq_trans _ EL); [exact H|]. now apply (veq_sym _ EL).
Qed.
Print Assumptions C66_is_zero_is_one.
Example C66_witness :
  tmap_is_const (fun v => Nat.eqb v 5) tA = false /\
  tmap_is_const (fun v => Nat.eqb v 0) (tmap_new Nat.eqb [(3,0);(4,0)] 0) = true.
Proof. split; reflexivity. Qed.

(** ** TotalVecSet *)
Definition tset_ok {T} (cmp : T -> T -> comparison) (s : tset T) : Prop := sorted cmp (ts_elements s).
Definition tset_pure {T} (cmp : T -> T -> comparison) strat (op : sop) : tset T -> tset T -> res (tset T) :=
  match op with
  | OpUnion => tset_or cmp strat | OpInter => tset_and cmp strat
  | OpXor => tset_xor cmp strat | OpDiff => tset_sub cmp strat
  end.
Definition tset_assign {T} (cmp : T -> T -> comparison) strat (op : sop) : tset T -> tset T -> done (tset T) :=
  match op with
  | OpUnion => tset_or_assign cmp strat | OpInter => tset_and_assign cmp strat
  | OpXor => tset_xor_assign cmp strat | OpDiff => tset_sub_assign cmp strat
  end.

Section TSet.
  Context {T : Type} {cmp : T -> T -> comparison} (L : OrdLaws cmp) (strat : nat -> nat -> bool).
  Local Notation ok := (tset_ok cmp).
  (** membership in the represented set *)
  Lemma contains_memb s x : ok s -> tset_contains cmp s x = xorb (ts_negated s) (memb cmp x (ts_elements s)).
  Proof.
    intros S. unfold tset_contains. f_equal. apply eq_true_iff_eq.
    rewrite (contains_spec L) by assumption. symmetry. apply memb_spec.
  Qed.
  Lemma op_ref_memb op a b z : sorted cmp a -> sorted cmp b ->
    memb cmp z (op_ref (cmp := cmp) op a b) = aop op (memb cmp z a) (memb cmp z b).
  Proof. intros Sa Sb. apply eq_true_iff_eq. rewrite memb_spec. now apply (op_ref_mem L). Qed.

  Lemma pure_correct op a b : ok a -> ok b ->
    exists r, tset_pure cmp strat op a b = Ok r /\ ok r /\
      forall x, tset_contains cmp r x = aop op (tset_contains cmp a x) (tset_contains cmp b x).
  Proof.
    intros Sa Sb. destruct a as [a na], b as [b nb]. unfold tset_ok in *. cbn [ts_elements] in *.
    pose proof (fun o x y => pure_op_ref L strat o x y) as P.
    assert (F : forall n o x y, sorted cmp x -> sorted cmp y ->
      (forall z, xorb n (aop o (memb cmp z x) (memb cmp z y)) =
         aop op (xorb na (memb cmp z a)) (xorb nb (memb cmp z b))) ->
      exists r, mk n (pure_op cmp strat o x y) = Ok r /\ sorted cmp (ts_elements r) /\
        forall z, tset_contains cmp r z = aop op (tset_contains cmp (TSet a na) z) (tset_contains cmp (TSet b nb) z)).
    { intros n o x y Sx Sy Q. rewrite P by assumption. exists (TSet (op_ref (cmp := cmp) o x y) n).
      split; [reflexivity|]. assert (S := op_ref_sorted L o x y Sx Sy). split; [exact S|].
      intros z. rewrite !contains_memb by assumption. cbn [ts_elements ts_negated].
      rewrite op_ref_memb by assumption. apply Q. }
    destruct op, na, nb;
      unfold tset_pure, tset_or, tset_and, tset_xor, tset_sub; cbn [ts_negated ts_elements xorb];
      (apply (F _ OpUnion) || apply (F _ OpInter) || apply (F _ OpXor) || apply (F _ OpDiff)); try assumption;
      intros z; cbn [aop]; destruct (memb cmp z a), (memb cmp z b); reflexivity.
  Qed.
  Lemma assign_correct op a b : ok a -> ok b ->
    exists r, tset_assign cmp strat op a b = Done r /\ ok r /\
      forall x, tset_contains cmp r x = aop op (tset_contains cmp a x) (tset_contains cmp b x).
  Proof.
    intros Sa Sb. destruct a as [a na], b as [b nb]. unfold tset_ok in *. cbn [ts_elements] in *.
    pose proof (fun o x y => assign_op_ref L strat o x y) as P.
    assert (F : forall n n0 o x y, sorted cmp x -> sorted cmp y ->
      (forall z, xorb n (aop o (memb cmp z x) (memb cmp z y)) =
         aop op (xorb na (memb cmp z a)) (xorb nb (memb cmp z b))) ->
      exists r, mka n n0 (assign_op cmp strat o x y) = Done r /\ sorted cmp (ts_elements r) /\
        forall z, tset_contains cmp r z = aop op (tset_contains cmp (TSet a na) z) (tset_contains cmp (TSet b nb) z)).
    { intros n n0 o x y Sx Sy Q. rewrite P by assumption. exists (TSet (op_ref (cmp := cmp) o x y) n).
      split; [reflexivity|]. assert (S := op_ref_sorted L o x y Sx Sy). split; [exact S|].
      intros z. rewrite !contains_memb by assumption. cbn [ts_elements ts_negated].
      rewrite op_ref_memb by assumption. apply Q. }
    destruct op, na, nb;
      unfold tset_assign, tset_or_assign, tset_and_assign, tset_xor_assign, tset_sub_assign; cbn [ts_negated ts_elements xorb];
      (apply (F _ _ OpUnion) || apply (F _ _ OpInter) || apply (F _ _ OpXor) || apply (F _ _ OpDiff)); try assumption;
      intros z; cbn [aop]; destruct (memb cmp z a), (memb cmp z b); reflexivity.
  Qed.
  Lemma memb_insert l l' x b z : sorted cmp l -> vset_insert cmp l x = Ok (l', b) ->
    memb cmp z l' = match cmp z x with Eq => true | _ => memb cmp z l end.
  Proof.
    intros S E. apply eq_true_iff_eq. rewrite memb_spec, (insert_mem L l l' x b z S E).
    pose proof (memb_spec (cmp := cmp) z l) as M. destruct (cmp z x); split; intuition congruence.
  Qed.
  Lemma memb_remove l l' x b z : sorted cmp l -> vset_remove cmp l x = Ok (l', b) ->
    memb cmp z l' = match cmp z x with Eq => false | _ => memb cmp z l end.
  Proof.
    intros S E. destruct (remove_spec L l x S) as (l2 & E2 & _ & H).
    assert (l2 = l') as -> by congruence. apply eq_true_iff_eq. rewrite memb_spec.
    assert (Q : mem cmp z l' <-> mem cmp z l /\ cmp z x <> Eq).
    { unfold mem. split.
      - intros (y & Hy & Ey). apply H in Hy as [Hy N]. split; [eauto|]. intros Q. apply N.
        rewrite <- (cmp_eq_r L _ _ x Ey). now apply (cmp_sym L).
      - intros ((y & Hy & Ey) & N). exists y. split; [|assumption]. apply H. split; [assumption|].
        intros Q. apply N. rewrite (cmp_eq_l L _ _ x Ey). now apply (cmp_sym L). }
    rewrite Q, <- memb_spec. destruct (cmp z x); split; intuition congruence.
  Qed.
  Lemma insert_correct s x : ok s ->
    exists r, tset_insert cmp s x = Ok r /\ ok r /\
      forall z, tset_contains cmp r z = match cmp z x with Eq => true | _ => tset_contains cmp s z end.
  Proof.
    intros S. destruct s as [l []]; unfold tset_insert, tset_ok in *; cbn [ts_negated ts_elements negb] in *.
    - destruct (remove_spec L l x S) as (l' & E & S' & _). rewrite E. eexists. split; [reflexivity|].
      split; [exact S'|]. intros z. rewrite !contains_memb by assumption. cbn [ts_negated ts_elements fst].
      rewrite (memb_remove l l' x _ z S E). destruct (cmp z x); reflexivity.
    - destruct (insert_spec L l x S) as (l' & E & S' & _). rewrite E. eexists. split; [reflexivity|].
      split; [exact S'|]. intros z. rewrite !contains_memb by assumption. cbn [ts_negated ts_elements fst].
      rewrite (memb_insert l l' x _ z S E). destruct (cmp z x); reflexivity.
  Qed.
  Lemma remove_correct s x : ok s ->
    exists r, tset_remove cmp s x = Ok r /\ ok r /\
      forall z, tset_contains cmp r z = match cmp z x with Eq => false | _ => tset_contains cmp s z end.
  Proof.
    intros S. destruct s as [l []]; unfold tset_remove, tset_ok in *; cbn [ts_negated ts_elements negb] in *.
    - destruct (insert_spec L l x S) as (l' & E & S' & _). rewrite E. eexists. split; [reflexivity|].
      split; [exact S'|]. intros z. rewrite !contains_memb by assumption. cbn [ts_negated ts_elements fst].
      rewrite (memb_insert l l' x _ z S E). destruct (cmp z x); reflexivity.
    - destruct (remove_spec L l x S) as (l' & E & S' & _). rewrite E. eexists. split; [reflexivity|].
      split; [exact S'|]. intros z. rewrite !contains_memb by assumption. cbn [ts_negated ts_elements fst].
      rewrite (memb_remove l l' x _ z S E). destruct (cmp z x); reflexivity.
  Qed.
  Lemma not_correct s z : ok s -> tset_contains cmp (tset_not s) z = negb (tset_contains cmp s z).
  Proof.
    intros S. rewrite !contains_memb by assumption. unfold tset_not. cbn [ts_elements ts_negated].
    destruct (ts_negated s), (memb cmp z (ts_elements s)); reflexivity.
  Qed.
End TSet.

(** ** C37: the operators are pointwise *)
Theorem C37_operators_pointwise :
  forall (T : Type) (cmp : T -> T -> comparison) (strat : nat -> nat -> bool) (a b : tset T),
    OrdLaws cmp -> tset_ok cmp a -> tset_ok cmp b ->
    let c := tset_contains cmp in
    (exists r, tset_and cmp strat a b = Ok r /\ tset_ok cmp r /\ forall x, c r x = c a x && c b x) /\
    (exists r, tset_or cmp strat a b = Ok r /\ tset_ok cmp r /\ forall x, c r x = c a x || c b x) /\
    (exists r, tset_xor cmp strat a b = Ok r /\ tset_ok cmp r /\ forall x, c r x = xorb (c a x) (c b x)) /\
    (exists r, tset_sub cmp strat a b = Ok r /\ tset_ok cmp r /\ forall x, c r x = c a x && negb (c b x)) /\
    (exists r, tset_and_assign cmp strat a b = Done r /\ tset_ok cmp r /\ forall x, c r x = c a x && c b x) /\
    (exists r, tset_or_assign cmp strat a b = Done r /\ tset_ok cmp r /\ forall x, c r x = c a x || c b x) /\
    (exists r, tset_xor_assign cmp strat a b = Done r /\ tset_ok cmp r /\ forall x, c r x = xorb (c a x) (c b x)) /\
    (exists r, tset_sub_assign cmp strat a b = Done r /\ tset_ok cmp r /\ forall x, c r x = c a x && negb (c b x)) /\
    tset_ok cmp (tset_not a) /\ (forall x, c (tset_not a) x = negb (c a x)).
Proof.
  intros T cmp strat a b L Sa Sb c. subst c.
  split; [exact (pure_correct L strat OpInter a b Sa Sb)|].
  split; [exact (pure_correct L strat OpUnion a b Sa Sb)|].
  split; [exact (pure_correct L strat OpXor a b Sa Sb)|].
  split; [exact (pure_correct L strat OpDiff a b Sa Sb)|].
  split; [exact (assign_correct L strat OpInter a b Sa Sb)|].
  split; [exact (assign_correct L strat OpUnion a b Sa Sb)|].
  split; [exact (assign_correct L strat OpXor a b Sa Sb)|].
  split; [exact (assign_correct L strat OpDiff a b Sa Sb)|].
  split; [exact Sa|]. intros x. now apply (not_correct L).
Qed.
Print Assumptions C37_operators_pointwise.
Definition sA : tset nat := TSet [1;3;4;7] true.
Definition sB : tset nat := TSet [0;3;7;9] false.
Example C37_witness :
  tset_ok Nat.compare sA /\ tset_ok Nat.compare sB /\
  tset_and Nat.compare alt sA sB = Ok (TSet [0;9] false) /\
  tset_or_assign Nat.compare alt sA sB = Done (TSet [1;4] true) /\
  tset_sub_assign Nat.compare alt sA (tset_not sB) = Done (TSet [0;9] false) /\
  tset_contains Nat.compare sA 100 = true /\ tset_contains Nat.compare sA 3 = false.
Proof. do 2 (split; [now apply sortedb_ok|]). repeat split; reflexivity. Qed.

(** ** C38: histories *)
Inductive tscmd {T : Type} (cmp : T -> T -> comparison) :=
| SConst (v : nat) (b : bool)                             (* constant, empty, all, From<bool> *)
| SFrom (v : nat) (l : {l : list T | sorted cmp l})       (* From<VecSet>, total_vec_set.rs:121 *)
| SDeser (v : nat) (l : list T) (n : bool)                (* total_vec_set.rs:46 *)
| SInsert (v : nat) (x : T)                               (* total_vec_set.rs:132 *)
| SRemove (v : nat) (x : T)                               (* total_vec_set.rs:164 *)
| SNot (v w : nat)                                        (* v := !w *)
| SBin (op : sop) (v a b : nat)                           (* v := &a op &b *)
| SAssign (op : sop) (v w : nat)                          (* v op= w.clone() *)
| SContains (v : nat) (x : T).                            (* total_vec_set.rs:128 *)
Arguments SConst {T cmp}. Arguments SFrom {T cmp}. Arguments SDeser {T cmp}. Arguments SInsert {T cmp}.
Arguments SRemove {T cmp}. Arguments SNot {T cmp}. Arguments SBin {T cmp}. Arguments SAssign {T cmp}.
Arguments SContains {T cmp}.
Section TSetHist.
  Context {T : Type} (cmp : T -> T -> comparison) (strat : nat -> nat -> bool).
  (** the step of the model; [None]: a panic or lack of fuel *)
  Definition tsstep (st : nat -> tset T) (c : tscmd cmp) : option ((nat -> tset T) * option bool) :=
    match c with
    | SConst v b => Some (upd st v (tset_constant b), None)
    | SFrom v l => Some (upd st v (tset_from (proj1_sig l)), None)
    | SDeser v l n => Some (upd st v (tset_deserialize cmp (l, n)), None)
    | SInsert v x => match tset_insert cmp (st v) x with Ok r => Some (upd st v r, None) | _ => None end
    | SRemove v x => match tset_remove cmp (st v) x with Ok r => Some (upd st v r, None) | _ => None end
    | SNot v w => Some (upd st v (tset_not (st w)), None)
    | SBin op v a b => match tset_pure cmp strat op (st a) (st b) with Ok r => Some (upd st v r, None) | _ => None end
    | SAssign op v w => match tset_assign cmp strat op (st v) (st w) with Done r => Some (upd st v r, None) | _ => None end
    | SContains v x => Some (st, Some (tset_contains cmp (st v) x))
    end.
  Fixpoint tsrun (st : nat -> tset T) (cs : list (tscmd cmp)) : option ((nat -> tset T) * list (option bool)) :=
    match cs with
    | [] => Some (st, [])
    | c :: cs' =>
        match tsstep st c with
        | Some (st', o) => match tsrun st' cs' with Some (st2, os) => Some (st2, o :: os) | None => None end
        | None => None
        end
    end.
  (** the same program on predicates *)
  Definition ats_step (st : nat -> T -> bool) (c : tscmd cmp) : (nat -> T -> bool) * option bool :=
    match c with
    | SConst v b => (upd st v (fun _ => b), None)
    | SFrom v l => (upd st v (fun z => memb cmp z (proj1_sig l)), None)
    | SDeser v l n => (upd st v (fun z => xorb n (memb cmp z l)), None)
    | SInsert v x => (upd st v (fun z => match cmp z x with Eq => true | _ => st v z end), None)
    | SRemove v x => (upd st v (fun z => match cmp z x with Eq => false | _ => st v z end), None)
    | SNot v w => (upd st v (fun z => negb (st w z)), None)
    | SBin op v a b => (upd st v (fun z => aop op (st a z) (st b z)), None)
    | SAssign op v w => (upd st v (fun z => aop op (st v z) (st w z)), None)
    | SContains v x => (st, Some (st v x))
    end.
  Fixpoint ats_run (st : nat -> T -> bool) (cs : list (tscmd cmp)) : (nat -> T -> bool) * list (option bool) :=
    match cs with
    | [] => (st, [])
    | c :: cs' => let '(st', o) := ats_step st c in let '(st2, os) := ats_run st' cs' in (st2, o :: os)
    end.
End TSetHist.
Theorem C38_history :
  forall (T : Type) (cmp : T -> T -> comparison) (strat : nat -> nat -> bool) (b0 : bool) (cs : list (tscmd cmp)),
    OrdLaws cmp ->
    exists st, tsrun cmp strat (fun _ => tset_constant b0) cs = Some (st, snd (ats_run cmp (fun _ _ => b0) cs)) /\
      (forall v, tset_ok cmp (st v)) /\
      forall v x, tset_contains cmp (st v) x = fst (ats_run cmp (fun _ _ => b0) cs) v x.
Proof.
  intros T cmp strat b0 cs L.
  enough (G : forall st ast, (forall v, tset_ok cmp (st v)) ->
    (forall v x, tset_contains cmp (st v) x = ast v x) ->
    exists st', tsrun cmp strat st cs = Some (st', snd (ats_run cmp ast cs)) /\
      (forall v, tset_ok cmp (st' v)) /\
      forall v x, tset_contains cmp (st' v) x = fst (ats_run cmp ast cs) v x).
  { apply G; [intros v; apply sorted_nil|]. intros v x. unfold tset_contains. cbn. now destruct b0. }
  induction cs as [|c cs IH]; intros st ast H A; [exists st; auto|]. cbn [tsrun ats_run].
  assert (exists st1, tsstep cmp strat st c = Some (st1, snd (ats_step cmp ast c)) /\
    (forall v, tset_ok cmp (st1 v)) /\
    forall v x, tset_contains cmp (st1 v) x = fst (ats_step cmp ast c) v x) as (st1 & -> & H1 & A1).
  2:{ destruct (ats_step cmp ast c) as [ast1 o]. cbn [fst snd] in *.
      destruct (IH st1 ast1 H1 A1) as (st2 & E & H2 & A2). rewrite E.
      destruct (ats_run cmp ast1 cs) as [ast2 os]. cbn [fst snd] in *. exists st2. auto. }
  assert (U : forall v s p, tset_ok cmp s -> (forall x, tset_contains cmp s x = p x) ->
    exists st1, Some (upd st v s, None) = Some (st1, @None bool) /\ (forall w, tset_ok cmp (st1 w)) /\
      forall w x, tset_contains cmp (st1 w) x = upd ast v p w x).
  { intros v s p Hs Hp. eexists. split; [reflexivity|]. split; [now apply upd_ok|].
    intros w x. unfold upd. destruct (w =? v); auto. }
  destruct c as [v b|v [l Sl]|v l n|v x|v x|v w|op v a b|op v w|v x]; cbn [tsstep ats_step fst snd proj1_sig].
  - apply U; [apply sorted_nil|]. intros x. unfold tset_contains. cbn. now destruct b.
  - apply U; [exact Sl|]. intros x. rewrite (contains_memb L) by exact Sl. cbn [tset_from ts_negated ts_elements]. now destruct (memb cmp x l).
  - pose proof (std_sort_dedup L l) as D. apply U; [apply D|]. intros x.
    rewrite (contains_memb L) by apply D. cbn [tset_deserialize ts_elements ts_negated fst snd]. f_equal.
    apply eq_true_iff_eq. rewrite !memb_spec. now apply (is_dedup_mem KeepFirst).
  - destruct (insert_correct L (st v) x (H v)) as (r & -> & Or & Cr). apply U; [assumption|].
    intros z. rewrite Cr, A. reflexivity.
  - destruct (remove_correct L (st v) x (H v)) as (r & -> & Or & Cr). apply U; [assumption|].
    intros z. rewrite Cr, A. reflexivity.
  - apply U; [apply H|]. intros z. rewrite (not_correct L) by apply H. now rewrite A.
  - destruct (pure_correct L strat op (st a) (st b) (H a) (H b)) as (r & -> & Or & Cr). apply U; [assumption|].
    intros z. now rewrite Cr, !A.
  - destruct (assign_correct L strat op (st v) (st w) (H v) (H w)) as (r & -> & Or & Cr). apply U; [assumption|].
    intros z. now rewrite Cr, !A.
  - eexists. split; [now rewrite A|]. split; assumption.
Qed.
Print Assumptions C38_history.
(** serializing a TotalVecSet and reading it back gives it back; reading arbitrary elements gives a
    valid set of exactly these, negated or not *)
Theorem C38_serde_round_trip :
  forall (T : Type) (cmp : T -> T -> comparison) (s : tset T) (l : list T) (neg : bool),
    OrdLaws cmp -> tset_ok cmp s ->
    tset_deserialize cmp (tset_serialize s) = s /\
    tset_ok cmp (tset_deserialize cmp (l, neg)) /\
    forall x, tset_contains cmp (tset_deserialize cmp (l, neg)) x = true <->
      (if neg then ~ mem cmp x l else mem cmp x l).
Proof.
  intros T cmp s l neg L H. split; [|split].
  - destruct s as [el n]. unfold tset_deserialize, tset_serialize. cbn [fst snd ts_elements ts_negated] in *.
    f_equal. exact (C14_serde_roundtrip _ _ _ L H).
  - apply (std_sort_dedup L l).
  - intros x. pose proof (std_sort_dedup L l) as D. rewrite (contains_memb L) by apply D.
    cbn [tset_deserialize ts_elements ts_negated fst snd].
    assert (Q : memb cmp x (vset_visit_seq cmp l) = memb cmp x l)
      by (apply eq_true_iff_eq; rewrite !memb_spec; now apply (is_dedup_mem KeepFirst)).
    rewrite Q. destruct neg; [rewrite <- (memb_spec (cmp := cmp))|rewrite <- (memb_spec (cmp := cmp))]; destruct (memb cmp x l); cbn [xorb]; split; try congruence; intros F; now destruct F.
Qed.
Print Assumptions C38_serde_round_trip.
Example C38_serde_round_trip_witness :
  tset_ok Nat.compare (TSet [1;3] true) /\ tset_serialize (TSet [1;3] true) = ([1;3], true) /\
  tset_deserialize Nat.compare ([3;1;3], true) = TSet [1;3] true.
Proof. vm_compute. repeat split; repeat constructor. Qed.
Definition demo_s : list (tscmd Nat.compare) :=
  [SDeser 0 [3;1;3] true; SInsert 0 3; SRemove 0 5; SNot 1 0; SBin OpXor 2 0 1; SAssign OpInter 2 0;
   SContains 2 7; SContains 2 5].
Example C38_witness :
  exists st, tsrun Nat.compare alt (fun _ => tset_constant false) demo_s =
    Some (st, [None;None;None;None;None;None;Some true;Some false]) /\
    st 0 = TSet [1;5] true /\ st 1 = TSet [1;5] false /\ st 2 = TSet [1;5] true.
Proof. eexists. vm_compute. repeat split. Qed.

(** ** C39: the relations between the represented sets *)
Section TSetRel.
  Context {T : Type} {cmp : T -> T -> comparison} (L : OrdLaws cmp) (strat : nat -> nat -> bool).
  Lemma sub_spec a b : sorted cmp a -> sorted cmp b ->
    exists r, vset_is_subset cmp strat a b = Ok r /\ (r = true <-> forall x, memb cmp x a = true -> memb cmp x b = true).
  Proof.
    intros Sa Sb. destruct (C09_predicates_decide T cmp strat a b L Sa Sb) as (_ & (r & E & H) & _).
    exists r. split; [assumption|]. rewrite H. split; intros Q x; specialize (Q x); rewrite !memb_spec in *; auto.
  Qed.
  Lemma sup_spec a b : sorted cmp a -> sorted cmp b ->
    exists r, vset_is_superset cmp strat a b = Ok r /\ (r = true <-> forall x, memb cmp x b = true -> memb cmp x a = true).
  Proof.
    intros Sa Sb. destruct (C09_predicates_decide T cmp strat a b L Sa Sb) as (_ & _ & (r & E & H)).
    exists r. split; [assumption|]. rewrite H. split; intros Q x; specialize (Q x); rewrite !memb_spec in *; auto.
  Qed.
  Lemma dis_spec a b : sorted cmp a -> sorted cmp b ->
    exists r, vset_is_disjoint cmp strat a b = Ok r /\ (r = true <-> forall x, memb cmp x a = true -> memb cmp x b = true -> False).
  Proof.
    intros Sa Sb. destruct (C09_predicates_decide T cmp strat a b L Sa Sb) as ((r & E & H) & _).
    exists r. split; [assumption|]. rewrite H.
    split; intros Q x; specialize (Q x); rewrite !memb_spec in *; [intros; apply Q; auto|tauto].
  Qed.
  (** an element in neither list *)
  Lemma fresh (Inf : infinite cmp) (a b : list T) : exists x, memb cmp x a = false /\ memb cmp x b = false.
  Proof.
    destruct (Inf (a ++ b)) as [x Hx]. exists x. rewrite mem_app in Hx. rewrite !memb_false. tauto.
  Qed.
End TSetRel.
Ltac by_memb x a b :=
  let u := fresh "u" in let v := fresh "v" in
  repeat match goal with
  | H : context [memb ?c x a] |- _ => revert H
  | H : context [memb ?c x b] |- _ => revert H
  end;
  match goal with |- context [memb ?c x a] => generalize (memb c x a), (memb c x b); intros u v end; destruct u, v; cbn [xorb negb]; intuition congruence.

Theorem C39_relations_infinite :
  forall (T : Type) (cmp : T -> T -> comparison) (strat : nat -> nat -> bool) (a b : tset T),
    OrdLaws cmp -> infinite cmp -> tset_ok cmp a -> tset_ok cmp b ->
    let c := tset_contains cmp in
    (exists r, tset_is_subset cmp strat a b = Ok r /\ (r = true <-> forall x, c a x = true -> c b x = true)) /\
    (exists r, tset_is_disjoint cmp strat a b = Ok r /\ (r = true <-> forall x, ~ (c a x = true /\ c b x = true))) /\
    (tset_is_empty a = true <-> forall x, c a x = false) /\
    (tset_is_all a = true <-> forall x, c a x = true) /\
    (tset_eqb cmp a b = true <-> forall x, c a x = c b x).
Proof.
  intros T cmp strat [a na] [b nb] L Inf Sa Sb c. unfold tset_ok in *. cbn [ts_elements] in *.
  assert (C : forall l n x, sorted cmp l -> c (TSet l n) x = xorb n (memb cmp x l)).
  { intros l n x S. apply (contains_memb L). exact S. }
  assert (FR := fresh Inf a b). destruct FR as (z & Za & Zb).
  assert (E0 : forall l : list T, sorted cmp l -> (vset_is_empty l = true <-> forall x, memb cmp x l = false)).
  { intros l S. destruct l as [|y l]; cbn; [split; auto|]. split; [discriminate|]. intros H. specialize (H y).
    now rewrite (cmp_refl L) in H. }
  split; [|split; [|split; [|split]]].
  - unfold tset_is_subset. cbn [ts_negated ts_elements]. destruct na, nb.
    + destruct (sup_spec L strat a b Sa Sb) as (r & E & H). exists r. split; [assumption|]. rewrite H.
      split; intros Q x; specialize (Q x); rewrite !C in * by assumption; by_memb x a b.
    + exists false. split; [reflexivity|]. split; [discriminate|]. intros Q. specialize (Q z).
      rewrite !C, Za, Zb in Q by assumption. cbn in Q. now specialize (Q eq_refl).
    + destruct (dis_spec L strat a b Sa Sb) as (r & E & H). exists r. split; [assumption|]. rewrite H.
      split; intros Q x; specialize (Q x); rewrite !C in * by assumption; by_memb x a b.
    + destruct (sub_spec L strat a b Sa Sb) as (r & E & H). exists r. split; [assumption|]. rewrite H.
      split; intros Q x; specialize (Q x); rewrite !C in * by assumption; by_memb x a b.
  - unfold tset_is_disjoint. cbn [ts_negated ts_elements]. destruct na, nb.
    + exists false. split; [reflexivity|]. split; [discriminate|]. intros Q. specialize (Q z).
      rewrite !C, Za, Zb in Q by assumption. cbn in Q. now destruct Q.
    + destruct (sup_spec L strat a b Sa Sb) as (r & E & H). exists r. split; [assumption|]. rewrite H.
      split; intros Q x; specialize (Q x); rewrite !C in * by assumption; by_memb x a b.
    + destruct (sub_spec L strat a b Sa Sb) as (r & E & H). exists r. split; [assumption|]. rewrite H.
      split; intros Q x; specialize (Q x); rewrite !C in * by assumption; by_memb x a b.
    + destruct (dis_spec L strat a b Sa Sb) as (r & E & H). exists r. split; [assumption|]. rewrite H.
      split; intros Q x; specialize (Q x); rewrite !C in * by assumption; by_memb x a b.
  - unfold tset_is_empty. cbn [ts_negated ts_elements]. rewrite andb_true_iff, (E0 a Sa). split.
    + intros [N H] x. rewrite C, H by assumption. now destruct na.
    + intros H. destruct na.
      * specialize (H z). rewrite C, Za in H by assumption. discriminate.
      * split; [reflexivity|]. intros x. specialize (H x). rewrite C in H by assumption. now destruct (memb cmp x a).
  - unfold tset_is_all. cbn [ts_negated ts_elements]. rewrite andb_true_iff, (E0 a Sa). split.
    + intros [N H] x. rewrite C, H by assumption. now destruct na.
    + intros H. destruct na.
      * split; [reflexivity|]. intros x. specialize (H x). rewrite C in H by assumption. now destruct (memb cmp x a).
      * specialize (H z). rewrite C, Za in H by assumption. discriminate.
  - unfold tset_eqb. cbn [ts_negated ts_elements]. rewrite andb_true_iff, (vset_eq_ext L a b Sa Sb).
    rewrite eqb_true_iff. split.
    + intros [H <-] x. rewrite !C by assumption. f_equal. apply eq_true_iff_eq. rewrite !memb_spec. apply H.
    + intros H. assert (na = nb) as <-.
      { specialize (H z). rewrite !C, Za, Zb in H by assumption. now destruct na, nb. }
      split; [|reflexivity]. intros x. rewrite <- !memb_spec. specialize (H x). rewrite !C in H by assumption.
      destruct na, (memb cmp x a), (memb cmp x b); cbn in H; intuition congruence.
Qed.
Print Assumptions C39_relations_infinite.
(** over any type: an answer [true] is right, equal sets have equal hashes *)
Theorem C39_true_is_sound :
  forall (T : Type) (cmp : T -> T -> comparison) (strat : nat -> nat -> bool) (a b : tset T),
    OrdLaws cmp -> tset_ok cmp a -> tset_ok cmp b ->
    let c := tset_contains cmp in
    (tset_is_subset cmp strat a b = Ok true -> forall x, c a x = true -> c b x = true) /\
    (tset_is_disjoint cmp strat a b = Ok true -> forall x, ~ (c a x = true /\ c b x = true)) /\
    (tset_is_empty a = true -> forall x, c a x = false) /\
    (tset_is_all a = true -> forall x, c a x = true) /\
    (tset_eqb cmp a b = true -> forall x, c a x = c b x) /\
    (forall (H : Type) (hl : nat -> list H) (h : T -> list H) (hb : bool -> list H),
       (forall x y, cmp x y = Eq -> h x = h y) ->
       tset_eqb cmp a b = true -> tset_hash hl h hb a = tset_hash hl h hb b).
Proof.
  intros T cmp strat [a na] [b nb] L Sa Sb c. unfold tset_ok in *. cbn [ts_elements] in *.
  assert (C : forall l n x, sorted cmp l -> c (TSet l n) x = xorb n (memb cmp x l)).
  { intros l n x S. apply (contains_memb L). exact S. }
  split; [|split; [|split; [|split; [|split]]]].
  - unfold tset_is_subset. cbn [ts_negated ts_elements]. intros R. destruct na, nb.
    + destruct (sup_spec L strat a b Sa Sb) as (r & E & H). rewrite E in R. injection R as ->.
      destruct H as [H _]. intros x. specialize (H eq_refl x). rewrite !C by assumption. by_memb x a b.
    + discriminate.
    + destruct (dis_spec L strat a b Sa Sb) as (r & E & H). rewrite E in R. injection R as ->.
      destruct H as [H _]. intros x. specialize (H eq_refl x). rewrite !C by assumption. by_memb x a b.
    + destruct (sub_spec L strat a b Sa Sb) as (r & E & H). rewrite E in R. injection R as ->.
      destruct H as [H _]. intros x. specialize (H eq_refl x). rewrite !C by assumption. by_memb x a b.
  - unfold tset_is_disjoint. cbn [ts_negated ts_elements]. intros R. destruct na, nb.
    + discriminate.
    + destruct (sup_spec L strat a b Sa Sb) as (r & E & H). rewrite E in R. injection R as ->.
      destruct H as [H _]. intros x. specialize (H eq_refl x). rewrite !C by assumption. by_memb x a b.
    + destruct (sub_spec L strat a b Sa Sb) as (r & E & H). rewrite E in R. injection R as ->.
      destruct H as [H _]. intros x. specialize (H eq_refl x). rewrite !C by assumption. by_memb x a b.
    + destruct (dis_spec L strat a b Sa Sb) as (r & E & H). rewrite E in R. injection R as ->.
      destruct H as [H _]. intros x. specialize (H eq_refl x). rewrite !C by assumption. by_memb x a b.
  - unfold tset_is_empty. cbn [ts_negated ts_elements]. destruct na, a; try discriminate. intros _ x.
    now rewrite C by assumption.
  - unfold tset_is_all. cbn [ts_negated ts_elements]. destruct na, a; try discriminate. intros _ x.
    now rewrite C by assumption.
  - unfold tset_eqb. cbn [ts_negated ts_elements]. rewrite andb_true_iff, (vset_eq_ext L a b Sa Sb), eqb_true_iff.
    intros [H <-] x. rewrite !C by assumption. f_equal. apply eq_true_iff_eq. rewrite !memb_spec. apply H.
  - intros H hl h hb Hh. unfold tset_eqb, tset_hash. cbn [ts_negated ts_elements].
    rewrite andb_true_iff, eqb_true_iff. intros [E <-]. f_equal. now apply (vset_hash_eq (cmp := cmp) hl h a b).
Qed.
Print Assumptions C39_true_is_sound.
(** empty(), all(), From<bool> and From<VecSet>: what they contain, and what is_empty and is_all say *)
Theorem C39_constants :
  forall (T : Type) (cmp : T -> T -> comparison) (l : list T), OrdLaws cmp -> sorted cmp l ->
    (forall x, tset_contains cmp tset_empty x = false) /\
    (forall x, tset_contains cmp tset_all x = true) /\
    (forall b x, tset_contains cmp (tset_constant b) x = b) /\
    (forall x, tset_contains cmp (tset_from l) x = true <-> mem cmp x l) /\
    tset_is_empty (@tset_empty T) = true /\ tset_is_all (@tset_empty T) = false /\
    tset_is_empty (@tset_all T) = false /\ tset_is_all (@tset_all T) = true /\
    (tset_is_empty (tset_from l) = true <-> l = []) /\ tset_is_all (tset_from l) = false /\
    (forall x, tset_contains cmp (tset_not (tset_from l)) x = true <-> ~ mem cmp x l).
Proof.
  intros T cmp l L S.
  assert (C : forall x, tset_contains cmp (tset_from l) x = memb cmp x l).
  { intros x. rewrite (contains_memb L) by exact S. cbn [tset_from ts_negated ts_elements]. now destruct (memb cmp x l). }
  split; [reflexivity|]. split; [reflexivity|]. split; [now intros [] x|].
  split; [intros x; rewrite C; apply memb_spec|]. do 4 (split; [reflexivity|]).
  split; [destruct l; cbn; split; congruence|]. split; [reflexivity|].
  intros x. specialize (C x). unfold tset_contains in *. cbn [tset_not tset_from ts_negated ts_elements] in *.
  rewrite <- memb_spec, <- C. now destruct (vset_contains cmp l x).
Qed.
Print Assumptions C39_constants.
(** the hypothesis [infinite] matters: over bool, {true} negated is {false}, but is_subset says no *)
Example C39_infinite_needed :
  let bcmp (x y : bool) := Nat.compare (Nat.b2n x) (Nat.b2n y) in
  tset_is_subset bcmp alt (TSet [true] true) (TSet [false] false) = Ok false /\
  forall x, tset_contains bcmp (TSet [true] true) x = true -> tset_contains bcmp (TSet [false] false) x = true.
Proof. split; [reflexivity|]. intros []; [discriminate|reflexivity]. Qed.
Example C39_witness :
  infinite Nat.compare /\ tset_ok Nat.compare sA /\
  tset_is_subset Nat.compare alt (TSet [0;9] false) sA = Ok true /\
  tset_is_disjoint Nat.compare alt sA sB = Ok false /\
  tset_is_disjoint Nat.compare alt (TSet [3;7] false) sA = Ok true /\
  tset_is_empty sA = false /\ tset_is_all (tset_not (tset_from (T := nat) [])) = true /\
  sorted Nat.compare [2;5] /\ tset_contains Nat.compare (tset_from [2;5]) 5 = true.
Proof.
  split; [exact nat_infinite|]. split; [now apply sortedb_ok|]. do 5 (split; [reflexivity|]).
  split; [now apply sortedb_ok|reflexivity].
Qed.

(** ** C40: is_superset *)
(** False of the code: is_superset is the negation of is_subset. *)
Theorem C40_is_superset_refuted :
  exists a b : tset nat, tset_ok Nat.compare a /\ tset_ok Nat.compare b /\
    (forall x, tset_contains Nat.compare b x = true -> tset_contains Nat.compare a x = true) /\
    (forall strat, tset_is_superset Nat.compare strat a b = Ok false).
Proof.
  exists sB, sB. split; [now apply sortedb_ok|]. split; [now apply sortedb_ok|]. split; [auto|].
  intros strat. destruct (C39_relations_infinite nat Nat.compare strat sB sB nat_ord nat_infinite) as ((r & E & H) & _);
    try (now apply sortedb_ok).
  unfold tset_is_superset. rewrite E. cbn. f_equal. destruct r; [reflexivity|]. destruct H as [_ H].
  symmetry. apply H. auto.
Qed.
Print Assumptions C40_is_superset_refuted.
(** What it computes (infinite element type): whether some element of a is missing from b. *)
Theorem C40_is_superset_exact :
  forall (T : Type) (cmp : T -> T -> comparison) (strat : nat -> nat -> bool) (a b : tset T),
    OrdLaws cmp -> infinite cmp -> tset_ok cmp a -> tset_ok cmp b ->
    exists r, tset_is_superset cmp strat a b = Ok r /\
      (r = false <-> forall x, tset_contains cmp a x = true -> tset_contains cmp b x = true).
Proof.
  intros T cmp strat a b L Inf Sa Sb.
  destruct (C39_relations_infinite T cmp strat a b L Inf Sa Sb) as ((r & E & H) & _).
  exists (negb r). unfold tset_is_superset. rewrite E. split; [reflexivity|].
  rewrite <- H. destruct r; cbn; tauto || (split; congruence).
Qed.
Print Assumptions C40_is_superset_exact.

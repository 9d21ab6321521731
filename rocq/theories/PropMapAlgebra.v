(** Property C136 (VecMap): the joins, the merges, retain and map_values, however they are nested and
    in whichever form they are used, compute at every key the function of the operands' values at that
    key that the call describes, so that two such expressions agree on all maps exactly if they agree
    as functions of optional values; maps with at most one entry are enough to tell them apart. *)
From Verif Require Import VecMapHist PropMap.

(** ** Specification: expressions over VecMap variables and their value at one key *)
Section Exp.
  Context {K V : Type}.
  Inductive mexp :=
  | XVar (i : nat)
  | XEmpty
  | XSingle (k : K) (v : V)                                              (* VecMap::single *)
  | XOuter (inplace : bool) (f : ojarg K V V -> option V) (x y : mexp)   (* outer_join, outer_join_with *)
  | XLeft (inplace : bool) (f : K * V * option V -> option V) (x y : mexp)
  | XRight (inplace : bool) (f : K * option V * V -> option V) (x y : mexp)
  | XInner (inplace : bool) (f : K * V * V -> option V) (x y : mexp)
  | XCombine (f : V * V -> V) (x y : mexp)                               (* combine_with *)
  | XMerge (x y : mexp)                                                  (* merge_with *)
  | XRetain (f : K * V -> bool) (x : mexp)
  | XMap (f : V -> V) (x : mexp).                                        (* map_values *)

  Context (kcmp : K -> K -> comparison).
  (** the value of an expression at key [k], given the variables' values there *)
  Fixpoint mval (k : K) (b : nat -> option V) (e : mexp) : option V :=
    match e with
    | XVar i => b i
    | XEmpty => None
    | XSingle k' v => match kcmp k k' with Eq => Some v | _ => None end
    | XOuter _ f x y =>
        match mval k b x, mval k b y with
        | Some v, Some w => f (OJBoth k v w)
        | Some v, None => f (OJLeft k v)
        | None, Some w => f (OJRight k w)
        | None, None => None
        end
    | XLeft _ f x y => match mval k b x with Some v => f (k, v, mval k b y) | None => None end
    | XRight _ f x y => match mval k b y with Some w => f (k, mval k b x, w) | None => None end
    | XInner _ f x y =>
        match mval k b x, mval k b y with Some v, Some w => f (k, v, w) | _, _ => None end
    | XCombine f x y =>
        match mval k b x, mval k b y with
        | Some v, Some w => Some (f (v, w))
        | Some v, None => Some v
        | None, o => o
        end
    | XMerge x y => match mval k b y with Some w => Some w | None => mval k b x end
    | XRetain f x => match mval k b x with Some v => if f (k, v) then Some v else None | None => None end
    | XMap f x => option_map f (mval k b x)
    end.

  (** the functions passed do not tell equal keys apart (nothing to ask when [Eq] means identical) *)
  Fixpoint key_blind (e : mexp) : Prop :=
    match e with
    | XVar _ | XEmpty | XSingle _ _ => True
    | XOuter _ f x y =>
        (forall k k', kcmp k k' = Eq -> forall v w, f (OJLeft k v) = f (OJLeft k' v) /\
           f (OJRight k v) = f (OJRight k' v) /\ f (OJBoth k v w) = f (OJBoth k' v w)) /\ key_blind x /\ key_blind y
    | XLeft _ f x y => (forall k k', kcmp k k' = Eq -> forall v o, f (k, v, o) = f (k', v, o)) /\ key_blind x /\ key_blind y
    | XRight _ f x y => (forall k k', kcmp k k' = Eq -> forall v o, f (k, o, v) = f (k', o, v)) /\ key_blind x /\ key_blind y
    | XInner _ f x y => (forall k k', kcmp k k' = Eq -> forall v w, f (k, v, w) = f (k', v, w)) /\ key_blind x /\ key_blind y
    | XCombine _ x y | XMerge x y => key_blind x /\ key_blind y
    | XRetain f x => (forall k k', kcmp k k' = Eq -> forall v, f (k, v) = f (k', v)) /\ key_blind x
    | XMap _ x => key_blind x
    end.
End Exp.
Arguments mexp : clear implicits.

(** ** Running an expression on the model *)
Section Run.
  Context {K V : Type} (kcmp : K -> K -> comparison) (strat : nat -> nat -> bool).
  Definition of_mdone {X} (d : done (X * unit)) : res X :=
    match d with Done (x, _) => Ok x | Unwound _ => Panicked | DoneNoFuel => OutOfFuel end.
  Definition two {X} (g : X -> X -> res X) (rx ry : res X) : res X := rbind rx (fun a => rbind ry (fun b => g a b)).
  Fixpoint m_run (rho : nat -> list (K * V)) (e : mexp K V) : res (list (K * V)) :=
    match e with
    | XVar i => Ok (rho i)
    | XEmpty => Ok vmap_empty
    | XSingle k v => Ok (vmap_single (k, v))
    | XOuter false f x y => two (fun a b => of_mdone (vmap_outer_join kcmp strat (pure_clos f) a b tt)) (m_run rho x) (m_run rho y)
    | XOuter true f x y => two (fun a b => of_mdone (vmap_outer_join_with kcmp strat (pure_clos f) a b tt)) (m_run rho x) (m_run rho y)
    | XLeft false f x y => two (fun a b => of_mdone (vmap_left_join kcmp strat (pure_clos f) a b tt)) (m_run rho x) (m_run rho y)
    | XLeft true f x y => two (fun a b => of_mdone (vmap_left_join_with kcmp strat (pure_clos f) a b tt)) (m_run rho x) (m_run rho y)
    | XRight false f x y => two (fun a b => of_mdone (vmap_right_join kcmp strat (pure_clos f) a b tt)) (m_run rho x) (m_run rho y)
    | XRight true f x y => two (fun a b => of_mdone (vmap_right_join_with kcmp strat (pure_clos f) a b tt)) (m_run rho x) (m_run rho y)
    | XInner false f x y => two (fun a b => of_mdone (vmap_inner_join kcmp strat (pure_clos f) a b tt)) (m_run rho x) (m_run rho y)
    | XInner true f x y => two (fun a b => of_mdone (vmap_inner_join_with kcmp strat (pure_clos f) a b tt)) (m_run rho x) (m_run rho y)
    | XCombine f x y => two (fun a b => of_mdone (vmap_combine_with kcmp strat (pure_clos f) a b tt)) (m_run rho x) (m_run rho y)
    | XMerge x y => two (fun a b => of_mdone (vmap_merge_with kcmp strat a b tt)) (m_run rho x) (m_run rho y)
    | XRetain f x => rmap (fun a => vmap_retain a f) (m_run rho x)
    | XMap f x => rmap (vmap_map_values f) (m_run rho x)
    end.
End Run.

(** ** Proofs *)
Section Maps.
  Context {K V : Type} {kcmp : K -> K -> comparison} (L : OrdLaws kcmp) (strat : nat -> nat -> bool).


  Lemma get_entry (m : list (K * V)) k : keys_sorted kcmp m -> vmap_get kcmp m k = option_map snd (entry (V := V) kcmp k m).
  Proof. intros S. now rewrite (get_spec L), lookup_entry. Qed.
  Lemma entry_key k (m : list (K * V)) k' (v : V) : entry kcmp k m = Some (k', v) -> kcmp k k' = Eq.
  Proof. intros H. now apply entry_Some_In in H as [_ H]. Qed.

  Definition computes (d : res (list (K * V))) (F : K -> option V) : Prop :=
    exists r, d = Ok r /\ keys_sorted kcmp r /\ forall k, vmap_get kcmp r k = F k.

  Lemma computes_done (d : done (list (K * V) * unit)) F r :
    d = Done (r, tt) -> keys_sorted kcmp r ->
    (forall k, option_map snd (entry kcmp k r) = F k) -> computes (of_mdone d) F.
  Proof.
    intros -> S H. exists r. split; [reflexivity|]. split; [exact S|]. intros k. now rewrite get_entry.
  Qed.

  Lemma outer_computes f (a b : list (K * V)) : keys_sorted kcmp a -> keys_sorted kcmp b ->
    (forall k k', kcmp k k' = Eq -> forall v w, f (OJLeft k v) = f (OJLeft k' v) /\
           f (OJRight k v) = f (OJRight k' v) /\ f (OJBoth k v w) = f (OJBoth k' v w)) ->
    computes (of_mdone (vmap_outer_join kcmp strat (pure_clos f) a b tt))
      (fun k => match vmap_get kcmp a k, vmap_get kcmp b k with
                | Some v, Some w => f (OJBoth k v w) | Some v, None => f (OJLeft k v)
                | None, Some w => f (OJRight k w) | None, None => None end).
  Proof.
    intros Sa Sb H. destruct (C24_outer_join_pointwise K V V V unit kcmp strat f a b tt L Sa Sb) as (r & Q & S & F).
    apply (computes_done _ _ r Q S). intros k. rewrite F, !get_entry by assumption.
    destruct (entry kcmp k a) as [[k1 v]|] eqn:Ea, (entry kcmp k b) as [[k2 w]|] eqn:Eb; cbn;
      try apply entry_key in Ea; try apply entry_key in Eb; [| | |reflexivity].
    - destruct (H k k1 Ea v w) as (_ & _ & ->). now destruct (f (OJBoth k1 v w)).
    - destruct (H k k1 Ea v v) as (-> & _ & _). now destruct (f (OJLeft k1 v)).
    - destruct (H k k2 Eb w w) as (_ & -> & _). now destruct (f (OJRight k2 w)).
  Qed.
  Lemma left_computes f (a b : list (K * V)) : keys_sorted kcmp a -> keys_sorted kcmp b ->
    (forall k k', kcmp k k' = Eq -> forall v o, f (k, v, o) = f (k', v, o)) ->
    computes (of_mdone (vmap_left_join kcmp strat (pure_clos f) a b tt))
      (fun k => match vmap_get kcmp a k with Some v => f (k, v, vmap_get kcmp b k) | None => None end).
  Proof.
    intros Sa Sb H. destruct (C25_left_join_pointwise K V V V unit kcmp strat f a b tt L Sa Sb) as (r & Q & S & F).
    apply (computes_done _ _ r Q S). intros k. rewrite F, (get_entry a) by assumption.
    destruct (entry kcmp k a) as [[k1 v]|] eqn:Ea; cbn; [|reflexivity]. apply entry_key in Ea.
    rewrite (H k k1 Ea). now destruct (f _).
  Qed.
  Lemma right_computes f (a b : list (K * V)) : keys_sorted kcmp a -> keys_sorted kcmp b ->
    (forall k k', kcmp k k' = Eq -> forall v o, f (k, o, v) = f (k', o, v)) ->
    computes (of_mdone (vmap_right_join kcmp strat (pure_clos f) a b tt))
      (fun k => match vmap_get kcmp b k with Some w => f (k, vmap_get kcmp a k, w) | None => None end).
  Proof.
    intros Sa Sb H. destruct (C26_right_join_pointwise K V V V unit kcmp strat f a b tt L Sa Sb) as (r & Q & S & F).
    apply (computes_done _ _ r Q S). intros k. rewrite F, !get_entry by assumption.
    destruct (entry kcmp k b) as [[k2 w]|] eqn:Eb; cbn; [|reflexivity]. apply entry_key in Eb.
    destruct (entry kcmp k a) as [[k1 v]|] eqn:Ea; cbn.
    - apply entry_key in Ea. rewrite (H k k1 Ea). now destruct (f _).
    - rewrite (H k k2 Eb). now destruct (f _).
  Qed.
  Lemma inner_computes f (a b : list (K * V)) : keys_sorted kcmp a -> keys_sorted kcmp b ->
    (forall k k', kcmp k k' = Eq -> forall v w, f (k, v, w) = f (k', v, w)) ->
    computes (of_mdone (vmap_inner_join kcmp strat (pure_clos f) a b tt))
      (fun k => match vmap_get kcmp a k, vmap_get kcmp b k with Some v, Some w => f (k, v, w) | _, _ => None end).
  Proof.
    intros Sa Sb H. destruct (C27_inner_join_pointwise K V V V unit kcmp strat f a b tt L Sa Sb) as (r & Q & S & F).
    apply (computes_done _ _ r Q S). intros k. rewrite F, !get_entry by assumption.
    destruct (entry kcmp k a) as [[k1 v]|] eqn:Ea, (entry kcmp k b) as [[k2 w]|] eqn:Eb; cbn; try reflexivity.
    apply entry_key in Ea. rewrite (H k k1 Ea). now destruct (f _).
  Qed.

  Lemma computes_two (g : list (K * V) -> list (K * V) -> res (list (K * V))) rx ry X Y (G : K -> option V -> option V -> option V) :
    computes rx X -> computes ry Y ->
    (forall a b, keys_sorted kcmp a -> keys_sorted kcmp b ->
       computes (g a b) (fun k => G k (vmap_get kcmp a k) (vmap_get kcmp b k))) ->
    computes (two g rx ry) (fun k => G k (X k) (Y k)).
  Proof.
    intros (a & -> & Sa & Ha) (b & -> & Sb & Hb) H. unfold two. cbn [rbind].
    destruct (H a b Sa Sb) as (r & Q & S & F). exists r. split; [exact Q|]. split; [exact S|].
    intros k. now rewrite F, Ha, Hb.
  Qed.

  Lemma m_run_ok rho e : (forall i, keys_sorted kcmp (rho i)) -> key_blind kcmp e ->
    computes (m_run kcmp strat rho e) (fun k => mval kcmp k (fun i => vmap_get kcmp (rho i) k) e).
  Proof.
    intros Sr. induction e as [i| |k' v'|ip f x IHx y IHy|ip f x IHx y IHy|ip f x IHx y IHy|ip f x IHx y IHy|f x IHx y IHy|x IHx y IHy|f x IHx|f x IHx];
      cbn [key_blind].
    - intros _. exists (rho i). split; [reflexivity|]. split; [apply Sr|reflexivity].
    - intros _. exists []. split; [reflexivity|]. split; [apply sorted_nil|reflexivity].
    - intros _. exists [(k', v')]. split; [reflexivity|]. split; [apply sorted_single|].
      intros k. rewrite (get_spec L) by apply sorted_single. cbn. destruct (kcmp k k'); reflexivity.
    - intros (H & Bx & By). cbn [mval m_run].
      destruct ip; eapply (computes_two _ _ _ _ _ (fun k p q => match p, q with
         | Some v, Some w => f (OJBoth k v w) | Some v, None => f (OJLeft k v)
         | None, Some w => f (OJRight k w) | None, None => None end) (IHx Bx) (IHy By)); intros a b Sa Sb.
      + rewrite (proj1 (C28_in_place_joins_equal_pure K V V unit kcmp strat a b tt L Sa Sb)). now apply outer_computes.
      + now apply outer_computes.
    - intros (H & Bx & By). cbn [mval m_run].
      destruct ip; eapply (computes_two _ _ _ _ _ (fun k p q => match p with Some v => f (k, v, q) | None => None end) (IHx Bx) (IHy By)); intros a b Sa Sb.
      + rewrite (proj1 (proj2 (C28_in_place_joins_equal_pure K V V unit kcmp strat a b tt L Sa Sb))). now apply left_computes.
      + now apply left_computes.
    - intros (H & Bx & By). cbn [mval m_run].
      destruct ip; eapply (computes_two _ _ _ _ _ (fun k p q => match q with Some w => f (k, p, w) | None => None end) (IHx Bx) (IHy By)); intros a b Sa Sb.
      + rewrite (proj1 (proj2 (proj2 (C28_in_place_joins_equal_pure K V V unit kcmp strat a b tt L Sa Sb)))). now apply right_computes.
      + now apply right_computes.
    - intros (H & Bx & By). cbn [mval m_run].
      destruct ip; eapply (computes_two _ _ _ _ _ (fun k p q => match p, q with Some v, Some w => f (k, v, w) | _, _ => None end) (IHx Bx) (IHy By)); intros a b Sa Sb.
      + rewrite (proj2 (proj2 (proj2 (C28_in_place_joins_equal_pure K V V unit kcmp strat a b tt L Sa Sb)))). now apply inner_computes.
      + now apply inner_computes.
    - intros (Bx & By). cbn [mval m_run].
      eapply (computes_two _ _ _ _ _ (fun _ p q => match p, q with
         | Some v, Some w => Some (f (v, w)) | Some v, None => Some v | None, o => o end) (IHx Bx) (IHy By)); intros a b Sa Sb.
      destruct (proj1 (C29_combine_merge_extend K V unit kcmp strat a b [] tt L Sa Sb) f) as (r & -> & S & F).
      exists r. split; [reflexivity|]. split; [exact S|exact F].
    - intros (Bx & By). cbn [mval m_run].
      eapply (computes_two _ _ _ _ _ (fun _ p q => match q with Some w => Some w | None => p end) (IHx Bx) (IHy By)); intros a b Sa Sb.
      destruct (proj1 (proj2 (C29_combine_merge_extend K V unit kcmp strat a b [] tt L Sa Sb))) as (r & -> & S & F).
      exists r. split; [reflexivity|]. split; [exact S|exact F].
    - intros (H & Bx). cbn [mval m_run]. destruct (IHx Bx) as (a & -> & Sa & Ha). exists (vmap_retain a f).
      destruct (retain_spec L a f Sa) as [S F]. split; [reflexivity|]. split; [exact S|].
      intros k. rewrite <- Ha, !get_entry, F by assumption. destruct (entry kcmp k a) as [[k1 v]|] eqn:Ea; [|reflexivity].
      cbn [option_map snd]. rewrite (H k k1 (entry_key _ _ _ _ Ea)). now destruct (f (k1, v)).
    - intros Bx. cbn [mval m_run]. destruct (IHx Bx) as (a & -> & Sa & Ha). exists (vmap_map_values f a).
      destruct (map_values_spec (kcmp := kcmp) f a Sa) as [S F]. split; [reflexivity|]. split; [exact S|].
      intros k. rewrite <- Ha, !get_entry, F by assumption. now destruct (entry kcmp k a).
  Qed.

  Lemma mval_ext k b b' (e : mexp K V) : (forall i, b i = b' i) -> mval kcmp k b e = mval kcmp k b' e.
  Proof.
    intros H. induction e as [i| |k' v'|ip f x IHx y IHy|ip f x IHx y IHy|ip f x IHx y IHy|ip f x IHx y IHy|f x IHx y IHy|x IHx y IHy|f x IHx|f x IHx];
      cbn [mval]; rewrite ?IHx, ?IHy; auto.
  Qed.
  (** the valuation in which variable i has the value [b i] at [k] and no other key *)
  Definition probe_maps (k : K) (b : nat -> option V) (i : nat) : list (K * V) :=
    match b i with Some v => [(k, v)] | None => [] end.
  Lemma probe_maps_sorted k b i : keys_sorted kcmp (probe_maps k b i).
  Proof. unfold probe_maps. destruct (b i); [apply sorted_single|apply sorted_nil]. Qed.
  Lemma probe_maps_get k b i : vmap_get kcmp (probe_maps k b i) k = b i.
  Proof.
    rewrite (get_spec L) by apply probe_maps_sorted. unfold probe_maps. destruct (b i); [|reflexivity].
    cbn. now rewrite (cmp_refl L).
  Qed.
  Lemma probe_maps_run k b e : key_blind kcmp e ->
    exists r, m_run kcmp strat (probe_maps k b) e = Ok r /\ vmap_get kcmp r k = mval kcmp k b e.
  Proof.
    intros B. destruct (m_run_ok (probe_maps k b) e (probe_maps_sorted k b) B) as (r & Q & S & F).
    exists r. split; [exact Q|]. rewrite F. apply mval_ext. intros i. apply probe_maps_get.
  Qed.
End Maps.

(** Every expression returns a valid map whose value at each key is the pointwise one. *)
Theorem C136_joins_are_pointwise :
  forall (K V : Type) (kcmp : K -> K -> comparison) (strat : nat -> nat -> bool)
    (e : mexp K V) (rho : nat -> list (K * V)),
    OrdLaws kcmp -> (forall i, keys_sorted kcmp (rho i)) -> key_blind kcmp e ->
    exists r, m_run kcmp strat rho e = Ok r /\ keys_sorted kcmp r /\
      forall k, vmap_get kcmp r k = mval kcmp k (fun i => vmap_get kcmp (rho i) k) e.
Proof. intros K V kcmp strat e rho L Sr B. exact (m_run_ok L strat rho e Sr B). Qed.
Print Assumptions C136_joins_are_pointwise.

(** Two expressions agree as functions of optional values exactly if they agree on all maps. *)
Theorem C136_map_identities :
  forall (K V : Type) (kcmp : K -> K -> comparison) (strat : nat -> nat -> bool) (e1 e2 : mexp K V),
    OrdLaws kcmp -> key_blind kcmp e1 -> key_blind kcmp e2 ->
    ((forall k b, mval kcmp k b e1 = mval kcmp k b e2) <->
     (forall rho, (forall i, keys_sorted kcmp (rho i)) ->
        exists r1 r2, m_run kcmp strat rho e1 = Ok r1 /\ m_run kcmp strat rho e2 = Ok r2 /\
          forall k, vmap_get kcmp r1 k = vmap_get kcmp r2 k)).
Proof.
  intros K V kcmp strat e1 e2 L B1 B2. split.
  - intros H rho Sr. destruct (m_run_ok L strat rho e1 Sr B1) as (r1 & Q1 & _ & F1), (m_run_ok L strat rho e2 Sr B2) as (r2 & Q2 & _ & F2).
    exists r1, r2. split; [exact Q1|]. split; [exact Q2|]. intros k. now rewrite F1, F2.
  - intros H k b. destruct (probe_maps_run L strat k b e1 B1) as (r1 & Q1 & F1), (probe_maps_run L strat k b e2 B2) as (r2 & Q2 & F2).
    destruct (H (probe_maps k b) (probe_maps_sorted k b)) as (p1 & p2 & R1 & R2 & Q).
    rewrite R1 in Q1. injection Q1 as ->. rewrite R2 in Q2. injection Q2 as ->. now rewrite <- F1, <- F2.
Qed.
Print Assumptions C136_map_identities.

(** ... and then [==] answers true, for every reflexive [==] of values. *)
Theorem C136_identities_compare_equal :
  forall (K V : Type) (kcmp : K -> K -> comparison) (veqb : V -> V -> bool) (strat : nat -> nat -> bool) (e1 e2 : mexp K V),
    OrdLaws kcmp -> (forall v, veqb v v = true) -> key_blind kcmp e1 -> key_blind kcmp e2 ->
    (forall k b, mval kcmp k b e1 = mval kcmp k b e2) ->
    forall rho, (forall i, keys_sorted kcmp (rho i)) ->
      exists r1 r2, m_run kcmp strat rho e1 = Ok r1 /\ m_run kcmp strat rho e2 = Ok r2 /\ vmap_eqb kcmp veqb r1 r2 = true.
Proof.
  intros K V kcmp veqb strat e1 e2 L Rv B1 B2 H rho Sr.
  destruct (m_run_ok L strat rho e1 Sr B1) as (r1 & Q1 & S1 & F1), (m_run_ok L strat rho e2 Sr B2) as (r2 & Q2 & S2 & F2).
  exists r1, r2. split; [exact Q1|]. split; [exact Q2|]. apply C65_map_eq_extensional; auto.
  intros k. rewrite F1, F2, H. destruct (mval _ _ _ e2); auto.
Qed.
Print Assumptions C136_identities_compare_equal.

(** Maps with at most one entry, all at the same key, are enough to refute an identity. *)
Theorem C136_one_entry_suffices :
  forall (K V : Type) (kcmp : K -> K -> comparison) (strat : nat -> nat -> bool) (e1 e2 : mexp K V),
    OrdLaws kcmp -> key_blind kcmp e1 -> key_blind kcmp e2 ->
    (forall (k : K) (rho : nat -> list (K * V)),
       (forall i, rho i = [] \/ exists v, rho i = [(k, v)]) ->
       exists r1 r2, m_run kcmp strat rho e1 = Ok r1 /\ m_run kcmp strat rho e2 = Ok r2 /\
         vmap_get kcmp r1 k = vmap_get kcmp r2 k) ->
    forall rho, (forall i, keys_sorted kcmp (rho i)) ->
      exists r1 r2, m_run kcmp strat rho e1 = Ok r1 /\ m_run kcmp strat rho e2 = Ok r2 /\
        forall k, vmap_get kcmp r1 k = vmap_get kcmp r2 k.
Proof.
  intros K V kcmp strat e1 e2 L B1 B2 H. apply C136_map_identities; auto. intros k b.
  destruct (probe_maps_run L strat k b e1 B1) as (r1 & Q1 & F1), (probe_maps_run L strat k b e2 B2) as (r2 & Q2 & F2).
  destruct (H k (probe_maps k b)) as (p1 & p2 & R1 & R2 & Q).
  - intros i. unfold probe_maps. destruct (b i); eauto.
  - rewrite R1 in Q1. injection Q1 as ->. rewrite R2 in Q2. injection Q2 as ->. now rewrite <- F1, <- F2.
Qed.
Print Assumptions C136_one_entry_suffices.

(** Instances, and a false identity. *)
Definition plus2 : nat * nat -> nat := fun '(x, y) => x + y.
Definition outer_plus (ip : bool) (x y : mexp nat nat) : mexp nat nat :=
  XOuter ip (fun z => match z with OJLeft _ v => Some v | OJRight _ w => Some w | OJBoth _ v w => Some (v + w) end) x y.
Definition left_keep (x y : mexp nat nat) : mexp nat nat :=
  XLeft false (fun '(_, v, o) => match o with Some _ => Some v | None => None end) x y.
Definition inner_first (x y : mexp nat nat) : mexp nat nat := XInner true (fun '(_, v, _) => Some v) x y.
Example C136_witness :
  (* combine_with(+) is outer_join with +, and both are commutative *)
  (forall rho, (forall i, keys_sorted Nat.compare (rho i)) ->
     exists r1 r2, m_run Nat.compare alt rho (XCombine plus2 (XVar 0) (XVar 1)) = Ok r1 /\
       m_run Nat.compare alt rho (outer_plus true (XVar 1) (XVar 0)) = Ok r2 /\
       vmap_eqb Nat.compare Nat.eqb r1 r2 = true) /\
  (* a left join that keeps matched entries is an inner join *)
  (forall rho, (forall i, keys_sorted Nat.compare (rho i)) ->
     exists r1 r2, m_run Nat.compare alt rho (left_keep (XVar 0) (XVar 1)) = Ok r1 /\
       m_run Nat.compare alt rho (inner_first (XVar 0) (XVar 1)) = Ok r2 /\
       vmap_eqb Nat.compare Nat.eqb r1 r2 = true) /\
  (* merge_with is not commutative *)
  ~ (forall k b, mval Nat.compare k b (XMerge (XVar 0) (XVar 1)) = mval (V := nat) Nat.compare k b (XMerge (XVar 1) (XVar 0))) /\
  m_run Nat.compare alt (fun i => if i =? 0 then ma else mb) (outer_plus true (XVar 1) (XVar 0)) =
    Ok [(0,5);(1,10);(3,36);(4,40);(7,78);(9,9)].
Proof.
  assert (R : forall v, (v =? v) = true) by apply Nat.eqb_refl.
  split; [|split; [|split]].
  - apply C136_identities_compare_equal; [exact nat_ord|exact R|cbn; tauto|cbn; tauto|].
    intros k b. cbn. destruct (b 0), (b 1); try reflexivity. f_equal. apply Nat.add_comm.
  - apply C136_identities_compare_equal; [exact nat_ord|exact R|cbn; tauto|cbn; tauto|].
    intros k b. cbn. destruct (b 0), (b 1); reflexivity.
  - intros H. specialize (H 0 (fun i => Some i)). discriminate.
  - vm_compute. reflexivity.
Qed.

(** Property C141 (TotalVecMap): arithmetic, combine_ref, supremum and infimum, negation and
    map_values, however they are nested, compute at every key what the value operations compute on the
    operands' values at that key, and panic exactly if a value operation does so at some key or on the
    defaults. Hence a law holds of all TotalVecMaps exactly if it holds of the values: maps over a
    commutative ring form one, maps over a lattice form one; constant maps are enough to refute a law. *)
From Verif Require Import VecMapHist PropMap TotalModel PropTotal.

(** ** Specification: expressions over TotalVecMap variables and their value at one point *)
Section Exp.
  Context {V : Type}.
  (** an operation on values is a partial function: [None] means that it panics *)
  Inductive texp :=
  | TVar (i : nat)
  | TConst (v : V)                                      (* constant, zero, one, min_value, max_value, from *)
  | TBin (op : V -> V -> option V) (x y : texp)         (* + - * /, combine_ref, supremum, infimum *)
  | TUn (g : V -> option V) (x : texp).                 (* unary minus, map_values *)
  (** the value at a point at which variable i has the value [o i] *)
  Fixpoint t_at (o : nat -> V) (e : texp) : option V :=
    match e with
    | TVar i => Some (o i)
    | TConst v => Some v
    | TBin op x y => match t_at o x, t_at o y with Some v, Some w => op v w | _, _ => None end
    | TUn g x => match t_at o x with Some v => g v | None => None end
    end.
  Context (veqb : V -> V -> bool).
  (** both panic, or both return equal values *)
  Definition oeq (x y : option V) : Prop :=
    match x, y with Some v, Some w => veqb v w = true | None, None => True | _, _ => False end.
  (** the operations do not tell equal values apart *)
  Fixpoint t_blind (e : texp) : Prop :=
    match e with
    | TVar _ | TConst _ => True
    | TBin op x y =>
        (forall v v' w w', veqb v v' = true -> veqb w w' = true -> oeq (op v w) (op v' w')) /\ t_blind x /\ t_blind y
    | TUn g x => (forall v v', veqb v v' = true -> oeq (g v) (g v')) /\ t_blind x
    end.
End Exp.
Arguments texp : clear implicits.

(** ** Running an expression on the model; [None]: it does not end *)
Section Run.
  Context {K V : Type} (kcmp : K -> K -> comparison) (strat : nat -> nat -> bool) (veqb : V -> V -> bool).
  Definition un_clos (g : V -> option V) : clos unit V V := fun e v => (e, match g v with Some r => Ret r | None => Throw end).
  Fixpoint t_run (rho : nat -> tmap K V) (e : texp V) : option (cres (tmap K V)) :=
    match e with
    | TVar i => Some (Ret (rho i))
    | TConst v => Some (Ret (tmap_constant v))
    | TBin op x y =>
        match t_run rho x with
        | Some (Ret a) =>
            match t_run rho y with
            | Some (Ret b) => option_map snd (tmap_arith kcmp strat veqb op a b tt)
            | r => r
            end
        | r => r
        end
    | TUn g x =>
        match t_run rho x with
        | Some (Ret a) => Some (snd (tmap_map_values veqb (un_clos g) a tt))
        | r => r
        end
    end.
  (** the same outcome: both panic, or both return maps that are [==] and agree everywhere *)
  Definition same_outcome (x y : option (cres (tmap K V))) : Prop :=
    match x, y with
    | Some (Ret a), Some (Ret b) =>
        tmap_eqb kcmp veqb a b = true /\ veqb (tm_default a) (tm_default b) = true /\
        forall k, veqb (tmap_index kcmp a k) (tmap_index kcmp b k) = true
    | Some Throw, Some Throw => True
    | _, _ => False
    end.
End Run.

(** ** Proofs *)
Section Proofs.
  Context {K V : Type} {kcmp : K -> K -> comparison} (L : OrdLaws kcmp) (strat : nat -> nat -> bool).
  Context {veqb : V -> V -> bool} (EL : EqLaws veqb).

  Lemma oeq_sym x y : oeq veqb x y -> oeq veqb y x.
  Proof. destruct x, y; cbn; auto. apply (veq_sym _ EL). Qed.
  Lemma oeq_trans x y z : oeq veqb x y -> oeq veqb y z -> oeq veqb x z.
  Proof. destruct x, y, z; cbn; try tauto. apply (veq_trans _ EL). Qed.
  Lemma oeq_none x y : oeq veqb x y -> (x = None <-> y = None).
  Proof. destruct x, y; cbn; intros H; split; intros; try congruence; destruct H. Qed.

  (** the points: the default and every key *)
  Definition point (m : tmap K V) (p : option K) : V := match p with None => tm_default m | Some k => tmap_index kcmp m k end.

  Lemma un_cases g (m : tmap K V) : tmap_ok kcmp veqb m ->
    (tmap_map_values veqb (un_clos g) m tt = (tt, Throw) /\ exists p, g (point m p) = None) \/
    (exists r, tmap_map_values veqb (un_clos g) m tt = (tt, Ret r) /\ tmap_ok kcmp veqb r /\
       forall p, oeq veqb (Some (point r p)) (g (point m p))).
  Proof.
    intros O. destruct (g (tm_default m)) as [d|] eqn:Qd.
    2:{ left. unfold tmap_map_values, un_clos. rewrite Qd. split; [reflexivity|]. now exists None. }
    set (g' := fun v => match g v with Some w => w | None => v end).
    assert (G : forall l, (exists q, In q l /\ g (snd q) = None) /\ filter_map_entries (K := K) veqb (un_clos g) d l tt = (tt, Throw) \/
       (forall q, In q l -> g (snd q) <> None) /\
       filter_map_entries veqb (un_clos g) d l tt = filter_map_entries veqb (pure_clos g') d l tt).
    { intros l. induction l as [|[k v] l IH]; [right; split; [intros q []|reflexivity]|]. cbn [filter_map_entries].
      change (un_clos g tt v) with (tt, match g v with Some r => Ret r | None => Throw end).
      change (pure_clos g' tt v) with (tt, Ret (g' v)). destruct (g v) as [w|] eqn:Qv.
      - assert (Qw : g' v = w) by (unfold g'; now rewrite Qv). rewrite Qw. destruct IH as [((q & Hq & Qq) & IH)|(H & IH)].
        + left. split; [exists q; split; [now right|exact Qq]|]. now rewrite IH.
        + right. split; [|now rewrite IH]. intros q [<-|Hq]; [cbn; congruence|auto].
      - left. split; [exists (k, v); split; [now left|exact Qv]|reflexivity]. }
    assert (S := proj1 O).
    destruct (G (tm_map m)) as [((q & Hq & Qq) & E1)|(H & E1)].
    - left. unfold tmap_map_values. unfold un_clos at 1. rewrite Qd, E1. split; [reflexivity|].
      exists (Some (fst q)). cbn [point]. rewrite (index_entry L) by exact S.
      now rewrite (entry_sorted L (fst q) (tm_map m) q S Hq (cmp_refl L _)).
    - right. assert (Q : tmap_map_values veqb (un_clos g) m tt = tmap_map_values veqb (pure_clos g') m tt).
      { unfold tmap_map_values. change (un_clos g tt (tm_default m)) with (tt, match g (tm_default m) with Some r => Ret r | None => Throw end).
        change (pure_clos g' tt (tm_default m)) with (tt, Ret (g' (tm_default m))).
        assert (Qw : g' (tm_default m) = d) by (unfold g'; now rewrite Qd). rewrite Qd, Qw, E1. reflexivity. }
      destruct (C34_map_values_pointwise K V V unit kcmp veqb veqb g' m tt L EL O) as (r & Er & Or & Dr & Hr).
      exists r. split; [now rewrite Q|]. split; [exact Or|]. intros [k|]; cbn [point].
      + specialize (Hr k). unfold g' in Hr. destruct (g (tmap_index kcmp m k)) as [w|] eqn:Qw; [exact Hr|].
        exfalso. revert Qw. rewrite (index_entry L) by exact S. destruct (entry kcmp k (tm_map m)) as [q|] eqn:Qe; [|congruence].
        apply entry_Some_In in Qe as [Qe _]. now apply H.
      + rewrite Qd. cbn. rewrite Dr. unfold g'. rewrite Qd. apply (veq_refl _ EL).
  Qed.

  Lemma bin_cases op (a b : tmap K V) : tmap_ok kcmp veqb a -> tmap_ok kcmp veqb b ->
    (option_map snd (tmap_arith kcmp strat veqb op a b tt) = Some Throw /\ exists p, op (point a p) (point b p) = None) \/
    (exists r, option_map snd (tmap_arith kcmp strat veqb op a b tt) = Some (Ret r) /\ tmap_ok kcmp veqb r /\
       forall p, oeq veqb (Some (point r p)) (op (point a p) (point b p))).
  Proof.
    intros Oa Ob. destruct (C34_arith_pointwise K V unit kcmp strat veqb op a b tt L EL Oa Ob) as (out & -> & HT & HR).
    cbn [option_map snd]. destruct out as [r|].
    - right. exists r. split; [reflexivity|]. destruct (HR r eq_refl) as (O & D & H). split; [exact O|].
      intros [k|]; cbn [point].
      + destruct (H k) as (v & -> & Hv). exact Hv.
      + rewrite D. apply (veq_refl _ EL).
    - left. split; [reflexivity|]. destruct (proj1 HT eq_refl) as [Q|(k & Q)]; [exists None|exists (Some k)]; exact Q.
  Qed.

  (** what running an expression does *)
  Definition t_spec (rho : nat -> tmap K V) (e : texp V) (d : option (cres (tmap K V))) : Prop :=
    (d = Some Throw /\ exists p, t_at (fun i => point (rho i) p) e = None) \/
    (exists r, d = Some (Ret r) /\ tmap_ok kcmp veqb r /\
       forall p, oeq veqb (Some (point r p)) (t_at (fun i => point (rho i) p) e)).

  Lemma t_run_ok rho e : (forall i, tmap_ok kcmp veqb (rho i)) -> t_blind veqb e -> t_spec rho e (t_run kcmp strat veqb rho e).
  Proof.
    intros Or. induction e as [i|v|op x IHx y IHy|g x IHx]; cbn [t_blind t_run].
    - intros _. right. exists (rho i). split; [reflexivity|]. split; [apply Or|]. intros p. apply (veq_refl _ EL).
    - intros _. right. exists (tmap_constant v). split; [reflexivity|]. split; [split; [apply sorted_nil|intros p []]|].
      intros [k|]; apply (veq_refl _ EL).
    - intros (B & Bx & By). destruct (IHx Bx) as [(-> & p & Q)|(a & -> & Oa & Ha)].
      { left. split; [reflexivity|]. exists p. cbn [t_at]. now rewrite Q. }
      destruct (IHy By) as [(-> & p & Q)|(b & -> & Ob & Hb)].
      { left. split; [reflexivity|]. exists p. cbn [t_at]. rewrite Q. now destruct (t_at _ x). }
      assert (H : forall p, oeq veqb (op (point a p) (point b p)) (t_at (fun i => point (rho i) p) (TBin op x y))).
      { intros p. cbn [t_at]. specialize (Ha p). specialize (Hb p).
        destruct (t_at _ x) as [v|]; [|destruct Ha]. destruct (t_at _ y) as [w|]; [|destruct Hb]. now apply B. }
      destruct (bin_cases op a b Oa Ob) as [(-> & p & Q)|(r & -> & O & Hr)].
      + left. split; [reflexivity|]. exists p. now apply (oeq_none _ _ (H p)).
      + right. exists r. split; [reflexivity|]. split; [exact O|]. intros p. eapply oeq_trans; [apply Hr|apply H].
    - intros (B & Bx). destruct (IHx Bx) as [(-> & p & Q)|(a & -> & Oa & Ha)].
      { left. split; [reflexivity|]. exists p. cbn [t_at]. now rewrite Q. }
      assert (H : forall p, oeq veqb (g (point a p)) (t_at (fun i => point (rho i) p) (TUn g x))).
      { intros p. cbn [t_at]. specialize (Ha p). destruct (t_at _ x) as [v|]; [|destruct Ha]. now apply B. }
      destruct (un_cases g a Oa) as [(-> & p & Q)|(r & -> & O & Hr)]; cbn [snd].
      + left. split; [reflexivity|]. exists p. now apply (oeq_none _ _ (H p)).
      + right. exists r. split; [reflexivity|]. split; [exact O|]. intros p. eapply oeq_trans; [apply Hr|apply H].
  Qed.

  Lemma spec_same rho e1 e2 d1 d2 : (forall o, oeq veqb (t_at o e1) (t_at o e2)) ->
    t_spec rho e1 d1 -> t_spec rho e2 d2 -> same_outcome kcmp veqb d1 d2.
  Proof.
    intros H [(-> & p & Q)|(r & -> & O & Hr)] [(-> & q & Q')|(r' & -> & O' & Hr')].
    - exact I.
    - apply (oeq_none _ _ (H _)) in Q. specialize (Hr' p). rewrite Q in Hr'. destruct Hr'.
    - apply (oeq_none _ _ (H _)) in Q'. specialize (Hr q). rewrite Q' in Hr. destruct Hr.
    - assert (A : forall p, veqb (point r p) (point r' p) = true).
      { intros p. apply (oeq_trans (Some (point r p)) _ (Some (point r' p)) (Hr p)).
        eapply oeq_trans; [apply H|]. apply oeq_sym, Hr'. }
      cbn. split; [|split; [exact (A None)|exact (fun k => A (Some k))]].
      apply (C36_eq_same_default_partial K V kcmp veqb r r' L EL O O' (A None)). exact (fun k => A (Some k)).
  Qed.
  Lemma const_point (o : nat -> V) p i : point (tmap_constant (K := K) (o i)) p = o i.
  Proof. destruct p; reflexivity. Qed.
  Lemma t_at_ext (o o' : nat -> V) e : (forall i, o i = o' i) -> t_at o e = t_at o' e.
  Proof. intros H. induction e as [i|v|op x IHx y IHy|g x IHx]; cbn [t_at]; rewrite ?H, ?IHx, ?IHy; reflexivity. Qed.
  Lemma spec_const (o : nat -> V) e d : t_spec (fun i => tmap_constant (o i)) e d ->
    (d = Some Throw /\ t_at o e = None) \/ (exists r, d = Some (Ret r) /\ oeq veqb (Some (tm_default r)) (t_at o e)).
  Proof.
    intros [(-> & p & Q)|(r & -> & O & Hr)].
    - left. split; [reflexivity|]. rewrite <- Q. apply t_at_ext. intros i. now rewrite const_point.
    - right. exists r. split; [reflexivity|]. exact (Hr None).
  Qed.
End Proofs.

(** Every expression ends; it panics exactly if an operation on values does at some key or on the
    defaults; otherwise it gives a valid map with the pointwise values and default. *)
Theorem C141_arithmetic_is_pointwise :
  forall (K V : Type) (kcmp : K -> K -> comparison) (strat : nat -> nat -> bool) (veqb : V -> V -> bool)
    (e : texp V) (rho : nat -> tmap K V),
    OrdLaws kcmp -> EqLaws veqb -> (forall i, tmap_ok kcmp veqb (rho i)) -> t_blind veqb e ->
    exists out, t_run kcmp strat veqb rho e = Some out /\
      (out = Throw <-> t_at (fun i => tm_default (rho i)) e = None \/
                       exists k, t_at (fun i => tmap_index kcmp (rho i) k) e = None) /\
      forall r, out = Ret r -> tmap_ok kcmp veqb r /\
        oeq veqb (Some (tm_default r)) (t_at (fun i => tm_default (rho i)) e) /\
        forall k, oeq veqb (Some (tmap_index kcmp r k)) (t_at (fun i => tmap_index kcmp (rho i) k) e).
Proof.
  intros K V kcmp strat veqb e rho L EL Or B. destruct (t_run_ok L strat EL rho e Or B) as [(-> & p & Q)|(r & -> & O & Hr)].
  - exists Throw. split; [reflexivity|]. split; [|discriminate]. split; [intros _|reflexivity].
    destruct p as [k|]; [right; now exists k|left; exact Q].
  - exists (Ret r). split; [reflexivity|]. split.
    + split; [discriminate|]. intros [Q|(k & Q)]; exfalso.
      * specialize (Hr None). cbn [point] in Hr. rewrite Q in Hr. destruct Hr.
      * specialize (Hr (Some k)). cbn [point] in Hr. rewrite Q in Hr. destruct Hr.
    + intros r' [= <-]. split; [exact O|]. split; [exact (Hr None)|exact (fun k => Hr (Some k))].
Qed.
Print Assumptions C141_arithmetic_is_pointwise.

(** A law, with its panics, holds of all maps exactly if it holds of the values. *)
Theorem C141_laws_lift :
  forall (K V : Type) (kcmp : K -> K -> comparison) (strat : nat -> nat -> bool) (veqb : V -> V -> bool) (e1 e2 : texp V),
    OrdLaws kcmp -> EqLaws veqb -> t_blind veqb e1 -> t_blind veqb e2 ->
    ((forall o : nat -> V, oeq veqb (t_at o e1) (t_at o e2)) <->
     (forall rho, (forall i, tmap_ok kcmp veqb (rho i)) ->
        same_outcome kcmp veqb (t_run kcmp strat veqb rho e1) (t_run kcmp strat veqb rho e2))).
Proof.
  intros K V kcmp strat veqb e1 e2 L EL B1 B2. split.
  - intros H rho Or. apply (spec_same L EL rho e1 e2); auto; now apply t_run_ok.
  - intros H o. assert (Oc : forall i, tmap_ok kcmp veqb (tmap_constant (K := K) (o i))) by (intros i; split; [apply sorted_nil|intros p []]).
    specialize (H (fun i => tmap_constant (o i)) Oc).
    destruct (spec_const o e1 _ (t_run_ok L strat EL _ e1 Oc B1)) as [(Q1 & R1)|(r1 & Q1 & R1)],
             (spec_const o e2 _ (t_run_ok L strat EL _ e2 Oc B2)) as [(Q2 & R2)|(r2 & Q2 & R2)];
      rewrite Q1, Q2 in H; cbn in H.
    + rewrite R1, R2. exact I.
    + destruct H.
    + destruct H.
    + destruct H as (_ & D & _). eapply (oeq_trans EL); [apply (oeq_sym EL), R1|].
      eapply (oeq_trans EL); [|exact R2]. exact D.
Qed.
Print Assumptions C141_laws_lift.

(** Constant maps are enough to refute a law. *)
Theorem C141_constants_suffice :
  forall (K V : Type) (kcmp : K -> K -> comparison) (strat : nat -> nat -> bool) (veqb : V -> V -> bool) (e1 e2 : texp V),
    OrdLaws kcmp -> EqLaws veqb -> t_blind veqb e1 -> t_blind veqb e2 ->
    (forall o : nat -> V, same_outcome kcmp veqb
       (t_run kcmp strat veqb (fun i => tmap_constant (o i)) e1) (t_run kcmp strat veqb (fun i => tmap_constant (o i)) e2)) ->
    forall rho, (forall i, tmap_ok kcmp veqb (rho i)) ->
      same_outcome kcmp veqb (t_run kcmp strat veqb rho e1) (t_run kcmp strat veqb rho e2).
Proof.
  intros K V kcmp strat veqb e1 e2 L EL B1 B2 H. apply C141_laws_lift; auto. intros o.
  assert (Oc : forall i, tmap_ok kcmp veqb (tmap_constant (K := K) (o i))) by (intros i; split; [apply sorted_nil|intros p []]).
  specialize (H o).
  destruct (spec_const o e1 _ (t_run_ok L strat EL _ e1 Oc B1)) as [(Q1 & R1)|(r1 & Q1 & R1)],
           (spec_const o e2 _ (t_run_ok L strat EL _ e2 Oc B2)) as [(Q2 & R2)|(r2 & Q2 & R2)];
    rewrite Q1, Q2 in H; cbn in H; try (destruct H; fail).
  - rewrite R1, R2. exact I.
  - destruct H as (_ & D & _). eapply (oeq_trans EL); [apply (oeq_sym EL), R1|]. eapply (oeq_trans EL); [|exact R2]. exact D.
Qed.
Print Assumptions C141_constants_suffice.

(** Supremum, infimum and negation are instances, definitionally. *)
Theorem C141_named_operations :
  forall (K V : Type) (kcmp : K -> K -> comparison) (strat : nat -> nat -> bool) (vcmp : V -> V -> comparison)
    (veqb : V -> V -> bool) (neg : V -> V) (rho : nat -> tmap K V) (i j : nat),
    t_run kcmp strat (eqb_of vcmp) rho (TBin (fun v w => Some (std_max vcmp v w)) (TVar i) (TVar j)) =
      option_map snd (tmap_supremum kcmp strat vcmp (rho i) (rho j) tt) /\
    t_run kcmp strat (eqb_of vcmp) rho (TBin (fun v w => Some (std_min vcmp v w)) (TVar i) (TVar j)) =
      option_map snd (tmap_infimum kcmp strat vcmp (rho i) (rho j) tt) /\
    t_run kcmp strat veqb rho (TUn (fun v => Some (neg v)) (TVar i)) = Some (snd (tmap_neg veqb neg (rho i) tt)).
Proof. intros. repeat split; reflexivity. Qed.
Print Assumptions C141_named_operations.

(** A law with panics: i8-like addition that panics on overflow is commutative but not associative;
    maps over it behave the same. *)
Definition add127 (v w : nat) : option nat := if v + w <=? 127 then Some (v + w) else None.
Example C141_witness :
  let add x y := TBin add127 x y in
  let sup x y := TBin (fun v w => Some (std_max Nat.compare v w)) x y in
  let inf x y := TBin (fun v w => Some (std_min Nat.compare v w)) x y in
  let run := t_run (K := nat) Nat.compare alt Nat.eqb in
  (forall rho, (forall i, tmap_ok Nat.compare Nat.eqb (rho i)) ->
     same_outcome Nat.compare Nat.eqb (run rho (add (TVar 0) (TVar 1))) (run rho (add (TVar 1) (TVar 0)))) /\
  (forall rho, (forall i, tmap_ok Nat.compare Nat.eqb (rho i)) ->
     same_outcome Nat.compare Nat.eqb (run rho (sup (TVar 0) (inf (TVar 0) (TVar 1)))) (run rho (TVar 0))) /\
  (* [sub] after [add] is not the identity: it may panic *)
  ~ (forall o : nat -> nat, oeq Nat.eqb (t_at o (TUn (fun v => Some (v - 1)) (TBin add127 (TVar 0) (TConst 1)))) (t_at o (TVar 0))) /\
  run (fun i => if i =? 0 then TMap [(1, 10); (2, 127)] 0 else TMap [(1, 5)] 3) (add (TVar 0) (TVar 1)) = Some Throw /\
  run (fun i => if i =? 0 then TMap [(1, 10); (2, 7); (4, 4)] 0 else TMap [(1, 5); (4, 0)] 4) (add (TVar 0) (TVar 1)) =
    Some (Ret (TMap [(1, 15); (2, 11)] 4)).
Proof.
  assert (EN : EqLaws Nat.eqb).
  { split; [apply Nat.eqb_refl|intros x y H; now rewrite Nat.eqb_sym|].
    intros x y z H1 H2. apply Nat.eqb_eq in H1, H2. apply Nat.eqb_eq. congruence. }
  assert (BN : forall op : nat -> nat -> option nat, forall v v' w w', (v =? v') = true -> (w =? w') = true -> oeq Nat.eqb (op v w) (op v' w')).
  { intros op v v' w w' H1 H2. apply Nat.eqb_eq in H1, H2. subst. destruct (op v' w'); cbn; auto. apply Nat.eqb_refl. }
  cbv zeta. split; [|split; [|split; [|split]]].
  - apply C141_laws_lift; [exact nat_ord|exact EN|cbn [t_blind]; auto using BN|cbn [t_blind]; auto using BN|].
    intros o. cbn [t_at]. unfold add127. rewrite (Nat.add_comm (o 1) (o 0)). destruct (_ <=? _); cbn; [apply Nat.eqb_refl|exact I].
  - apply (proj1 (C141_laws_lift nat nat Nat.compare alt Nat.eqb (TBin (fun v w => Some (std_max Nat.compare v w)) (TVar 0) (TBin (fun v w => Some (std_min Nat.compare v w)) (TVar 0) (TVar 1))) (TVar 0)
             nat_ord EN (conj (BN _) (conj I (conj (BN _) (conj I I)))) I)).
    intros o. cbn [t_at oeq]. unfold std_max, std_min.
    apply Nat.eqb_eq. destruct (Nat.compare_spec (o 1) (o 0)) as [Q|Q|Q].
    + rewrite Nat.compare_refl. reflexivity.
    + destruct (Nat.compare_spec (o 1) (o 0)); lia.
    + rewrite Nat.compare_refl. reflexivity.
  - intros H. specialize (H (fun _ => 127)). vm_compute in H. exact H.
  - vm_compute. reflexivity.
  - vm_compute. reflexivity.
Qed.

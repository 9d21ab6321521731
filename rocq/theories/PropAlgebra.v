(** Property C118 (VecSet and TotalVecSet): every identity, inclusion and disjointness of set algebra
    holds of the operators, however they are nested and whichever form of an operator is used, and no
    other one does. *)
From Verif Require Import VecMapHist PropSet PropMap TotalModel PropTotal.

(** ** Specification: expressions and their truth value *)
Inductive conn := Or | And | Xor | Minus.
Definition conn_bool (c : conn) (p q : bool) : bool :=
  match c with Or => p || q | And => p && q | Xor => xorb p q | Minus => p && negb q end.
(** the forms an operator comes in: [a | b], [a |= b] consuming b, [a |= &b] *)
Inductive form := ByRef | AssignMoved | AssignBorrowed.

(** expressions over VecSet variables *)
Inductive sexp := SVar (i : nat) | SEmpty | SOp (c : conn) (h : form) (x y : sexp).
(** is an element a member, given the variables it is a member of *)
Fixpoint s_truth (b : nat -> bool) (x : sexp) : bool :=
  match x with
  | SVar i => b i
  | SEmpty => false
  | SOp c _ x y => conn_bool c (s_truth b x) (s_truth b y)
  end.
(** expressions over TotalVecSet variables; TotalVecSet has no assignment from a reference *)
Inductive texp := TVar (i : nat) | TConst (v : bool) | TNot (x : texp) | TOp (c : conn) (moved : bool) (x y : texp).
Fixpoint t_truth (b : nat -> bool) (x : texp) : bool :=
  match x with
  | TVar i => b i
  | TConst v => v
  | TNot x => negb (t_truth b x)
  | TOp c _ x y => conn_bool c (t_truth b x) (t_truth b y)
  end.

(** ** Running an expression on the model *)
Definition of_done {X} (d : done X) : res X :=
  match d with Done x => Ok x | Unwound _ => Panicked | DoneNoFuel => OutOfFuel end.
Section Run.
  Context {T : Type} (cmp : T -> T -> comparison) (strat : nat -> nat -> bool).
  Definition s_apply (c : conn) (h : form) (a b : list T) : res (list T) :=
    match c, h with
    | Or, ByRef => vset_union cmp strat a b
    | Or, AssignMoved => of_done (vset_bitor_assign cmp strat a b)
    | Or, AssignBorrowed => of_done (vset_bitor_assign_ref cmp strat a b)
    | And, ByRef => vset_intersection cmp strat a b
    | And, AssignMoved => of_done (vset_bitand_assign cmp strat a b)
    | And, AssignBorrowed => of_done (vset_bitand_assign_ref cmp strat a b)
    | Xor, ByRef => vset_symmetric_difference cmp strat a b
    | Xor, AssignMoved => of_done (vset_bitxor_assign cmp strat a b)
    | Xor, AssignBorrowed => of_done (vset_bitxor_assign_ref cmp strat a b)
    | Minus, ByRef => vset_difference cmp strat a b
    | Minus, AssignMoved => of_done (vset_sub_assign cmp strat a b)
    | Minus, AssignBorrowed => of_done (vset_sub_assign_ref cmp strat a b)
    end.
  Fixpoint s_run (rho : nat -> list T) (x : sexp) : res (list T) :=
    match x with
    | SVar i => Ok (rho i)
    | SEmpty => Ok vset_empty
    | SOp c h x y => rbind (s_run rho x) (fun a => rbind (s_run rho y) (fun b => s_apply c h a b))
    end.
  Definition t_apply (c : conn) (moved : bool) (a b : tset T) : res (tset T) :=
    match c, moved with
    | Or, false => tset_or cmp strat a b
    | Or, true => of_done (tset_or_assign cmp strat a b)
    | And, false => tset_and cmp strat a b
    | And, true => of_done (tset_and_assign cmp strat a b)
    | Xor, false => tset_xor cmp strat a b
    | Xor, true => of_done (tset_xor_assign cmp strat a b)
    | Minus, false => tset_sub cmp strat a b
    | Minus, true => of_done (tset_sub_assign cmp strat a b)
    end.
  Fixpoint t_run (rho : nat -> tset T) (x : texp) : res (tset T) :=
    match x with
    | TVar i => Ok (rho i)
    | TConst v => Ok (tset_constant v)
    | TNot x => rmap tset_not (t_run rho x)
    | TOp c m x y => rbind (t_run rho x) (fun a => rbind (t_run rho y) (fun b => t_apply c m a b))
    end.
End Run.

(** ** Proofs *)
Definition conn_sop (c : conn) : sop := match c with Or => OpUnion | And => OpInter | Xor => OpXor | Minus => OpDiff end.
Lemma aop_conn c p q : aop (conn_sop c) p q = conn_bool c p q.
Proof. now destruct c. Qed.

Section Sets.
  Context {T : Type} {cmp : T -> T -> comparison} (L : OrdLaws cmp) (strat : nat -> nat -> bool).

  Lemma s_apply_ok c h a b : sorted cmp a -> sorted cmp b ->
    exists r, s_apply cmp strat c h a b = Ok r /\ sorted cmp r /\
      forall z, memb cmp z r = conn_bool c (memb cmp z a) (memb cmp z b).
  Proof.
    intros Sa Sb. exists (op_ref (cmp := cmp) (conn_sop c) a b).
    split; [|split; [now apply (op_ref_sorted L)|intros z; rewrite (op_ref_memb L) by assumption; apply aop_conn]].
    pose proof (pure_op_ref L strat (conn_sop c) a b Sa Sb) as P.
    pose proof (assign_op_ref L strat (conn_sop c) a b Sa Sb) as Q.
    pose proof (assign_ref_op_ref L strat (conn_sop c) a b Sa Sb) as R.
    destruct c, h; cbn [s_apply conn_sop pure_op assign_op assign_ref_op] in *; try exact P;
      [rewrite Q|rewrite R|rewrite Q|rewrite R|rewrite Q|rewrite R|rewrite Q|rewrite R]; reflexivity.
  Qed.
  Lemma s_run_ok rho x : (forall i, sorted cmp (rho i)) ->
    exists r, s_run cmp strat rho x = Ok r /\ sorted cmp r /\
      forall z, memb cmp z r = s_truth (fun i => memb cmp z (rho i)) x.
  Proof.
    intros H. induction x as [i| |c h x IHx y IHy]; cbn [s_run s_truth].
    - eauto.
    - exists []. split; [reflexivity|]. split; [apply sorted_nil|reflexivity].
    - destruct IHx as (a & -> & Sa & Ha), IHy as (b & -> & Sb & Hb). cbn [rbind].
      destruct (s_apply_ok c h a b Sa Sb) as (r & Q & S & Hr). exists r. split; [exact Q|]. split; [exact S|].
      intros z. now rewrite Hr, Ha, Hb.
  Qed.

  (** the valuation in which variable i holds x0 exactly when b i *)
  Definition probe_sets (x0 : T) (b : nat -> bool) (i : nat) : list T := if b i then [x0] else [].
  Lemma probe_sorted x0 b i : sorted cmp (probe_sets x0 b i).
  Proof. unfold probe_sets. destruct (b i); [apply sorted_single|apply sorted_nil]. Qed.
  Lemma probe_memb x0 b i : memb cmp x0 (probe_sets x0 b i) = b i.
  Proof. unfold probe_sets, memb. destruct (b i); [|reflexivity]. cbn [existsb]. now rewrite (cmp_refl L). Qed.
  Lemma truth_ext b b' x : (forall i, b i = b' i) -> s_truth b x = s_truth b' x.
  Proof. intros H. induction x as [i| |c h x IHx y IHy]; cbn [s_truth]; [apply H|reflexivity|now rewrite IHx, IHy]. Qed.
  Lemma probe_run x0 b x : exists r, s_run cmp strat (probe_sets x0 b) x = Ok r /\ sorted cmp r /\ memb cmp x0 r = s_truth b x.
  Proof.
    destruct (s_run_ok (probe_sets x0 b) x (probe_sorted x0 b)) as (r & Q & S & H). exists r. split; [exact Q|].
    split; [exact S|]. rewrite H. apply truth_ext. intros i. apply probe_memb.
  Qed.
End Sets.

Theorem C118_set_identities :
  forall (T : Type) (cmp : T -> T -> comparison) (strat : nat -> nat -> bool) (x0 : T) (e1 e2 : sexp),
    OrdLaws cmp ->
    ((forall b, s_truth b e1 = s_truth b e2) <->
     (forall rho, (forall i, sorted cmp (rho i)) ->
        exists r1 r2, s_run cmp strat rho e1 = Ok r1 /\ s_run cmp strat rho e2 = Ok r2 /\ vset_eqb cmp r1 r2 = true)).
Proof.
  intros T cmp strat x0 e1 e2 L. split.
  - intros H rho Sr. destruct (s_run_ok L strat rho e1 Sr) as (r1 & Q1 & S1 & H1), (s_run_ok L strat rho e2 Sr) as (r2 & Q2 & S2 & H2).
    exists r1, r2. split; [exact Q1|]. split; [exact Q2|]. apply (vset_eq_ext L); auto.
    intros z. rewrite <- !memb_spec, H1, H2, H. reflexivity.
  - intros H b. destruct (probe_run L strat x0 b e1) as (r1 & Q1 & S1 & H1), (probe_run L strat x0 b e2) as (r2 & Q2 & S2 & H2).
    destruct (H (probe_sets x0 b) (probe_sorted x0 b)) as (p1 & p2 & R1 & R2 & Q).
    rewrite R1 in Q1. injection Q1 as ->. rewrite R2 in Q2. injection Q2 as ->.
    rewrite <- H1, <- H2. apply eq_true_iff_eq. rewrite !memb_spec.
    exact (proj1 (vset_eq_ext L r1 r2 S1 S2) Q x0).
Qed.
Print Assumptions C118_set_identities.

(** an inclusion / a disjointness of set algebra is what is_subset, is_disjoint answer *)
Theorem C118_set_relations :
  forall (T : Type) (cmp : T -> T -> comparison) (strat : nat -> nat -> bool) (x0 : T) (e1 e2 : sexp),
    OrdLaws cmp ->
    ((forall b, s_truth b e1 = true -> s_truth b e2 = true) <->
     (forall rho, (forall i, sorted cmp (rho i)) ->
        exists r1 r2, s_run cmp strat rho e1 = Ok r1 /\ s_run cmp strat rho e2 = Ok r2 /\
          vset_is_subset cmp strat r1 r2 = Ok true)) /\
    ((forall b, s_truth b e1 = true -> s_truth b e2 = true -> False) <->
     (forall rho, (forall i, sorted cmp (rho i)) ->
        exists r1 r2, s_run cmp strat rho e1 = Ok r1 /\ s_run cmp strat rho e2 = Ok r2 /\
          vset_is_disjoint cmp strat r1 r2 = Ok true)).
Proof.
  intros T cmp strat x0 e1 e2 L. split; split.
  - intros H rho Sr. destruct (s_run_ok L strat rho e1 Sr) as (r1 & Q1 & S1 & H1), (s_run_ok L strat rho e2 Sr) as (r2 & Q2 & S2 & H2).
    exists r1, r2. split; [exact Q1|]. split; [exact Q2|].
    destruct (C09_predicates_decide T cmp strat r1 r2 L S1 S2) as (_ & (r & -> & R) & _). f_equal. apply R.
    intros z. rewrite <- !memb_spec, H1, H2. apply H.
  - intros H b. destruct (probe_run L strat x0 b e1) as (r1 & Q1 & S1 & H1), (probe_run L strat x0 b e2) as (r2 & Q2 & S2 & H2).
    destruct (H (probe_sets x0 b) (probe_sorted x0 b)) as (p1 & p2 & R1 & R2 & Q).
    rewrite R1 in Q1. injection Q1 as ->. rewrite R2 in Q2. injection Q2 as ->.
    destruct (C09_predicates_decide T cmp strat r1 r2 L S1 S2) as (_ & (r & E & R) & _).
    rewrite Q in E. injection E as <-. rewrite <- H1, <- H2, !memb_spec. now apply R.
  - intros H rho Sr. destruct (s_run_ok L strat rho e1 Sr) as (r1 & Q1 & S1 & H1), (s_run_ok L strat rho e2 Sr) as (r2 & Q2 & S2 & H2).
    exists r1, r2. split; [exact Q1|]. split; [exact Q2|].
    destruct (C09_predicates_decide T cmp strat r1 r2 L S1 S2) as ((r & -> & R) & _). f_equal. apply R.
    intros z. rewrite <- !memb_spec, H1, H2. intros [A B]. exact (H _ A B).
  - intros H b. destruct (probe_run L strat x0 b e1) as (r1 & Q1 & S1 & H1), (probe_run L strat x0 b e2) as (r2 & Q2 & S2 & H2).
    destruct (H (probe_sets x0 b) (probe_sorted x0 b)) as (p1 & p2 & R1 & R2 & Q).
    rewrite R1 in Q1. injection Q1 as ->. rewrite R2 in Q2. injection Q2 as ->.
    destruct (C09_predicates_decide T cmp strat r1 r2 L S1 S2) as ((r & E & R) & _).
    rewrite Q in E. injection E as <-. rewrite <- H1, <- H2, !memb_spec. intros A B.
    exact (proj1 R eq_refl x0 (conj A B)).
Qed.
Print Assumptions C118_set_relations.

(** ** TotalVecSet *)
Section Totals.
  Context {T : Type} {cmp : T -> T -> comparison} (L : OrdLaws cmp) (strat : nat -> nat -> bool).
  Local Notation ok := (tset_ok cmp).
  Lemma pure_flag op a b r : tset_pure cmp strat op a b = Ok r -> ts_negated r = aop op (ts_negated a) (ts_negated b).
  Proof.
    destruct a as [a na], b as [b nb]. destruct op, na, nb;
      unfold tset_pure, tset_or, tset_and, tset_xor, tset_sub; cbn [ts_negated ts_elements xorb aop negb andb orb];
      unfold mk, rmap, rbind; match goal with |- context [match ?x with Ok _ => _ | _ => _ end] => destruct x end;
      intros [= <-]; reflexivity.
  Qed.
  Lemma assign_flag op a b r : tset_assign cmp strat op a b = Done r -> ts_negated r = aop op (ts_negated a) (ts_negated b).
  Proof.
    destruct a as [a na], b as [b nb]. destruct op, na, nb;
      unfold tset_assign, tset_or_assign, tset_and_assign, tset_xor_assign, tset_sub_assign; cbn [ts_negated ts_elements xorb aop negb andb orb];
      unfold mka; match goal with |- context [match ?x with Done _ => _ | _ => _ end] => destruct x end;
      intros [= <-]; reflexivity.
  Qed.
  Lemma t_apply_ok c m a b : ok a -> ok b ->
    exists r, t_apply cmp strat c m a b = Ok r /\ ok r /\ ts_negated r = conn_bool c (ts_negated a) (ts_negated b) /\
      forall z, tset_contains cmp r z = conn_bool c (tset_contains cmp a z) (tset_contains cmp b z).
  Proof.
    intros Sa Sb. destruct m.
    - destruct (assign_correct L strat (conn_sop c) a b Sa Sb) as (r & Q & S & H). exists r.
      pose proof (assign_flag _ _ _ _ Q) as F. rewrite aop_conn in F.
      split; [destruct c; cbn [t_apply conn_sop tset_assign] in *; now rewrite Q|].
      split; [exact S|]. split; [exact F|]. intros z. rewrite H. apply aop_conn.
    - destruct (pure_correct L strat (conn_sop c) a b Sa Sb) as (r & Q & S & H). exists r.
      pose proof (pure_flag _ _ _ _ Q) as F. rewrite aop_conn in F.
      split; [destruct c; exact Q|].
      split; [exact S|]. split; [exact F|]. intros z. rewrite H. apply aop_conn.
  Qed.
  Lemma t_run_ok rho x : (forall i, ok (rho i)) ->
    exists r, t_run cmp strat rho x = Ok r /\ ok r /\ ts_negated r = t_truth (fun i => ts_negated (rho i)) x /\
      forall z, tset_contains cmp r z = t_truth (fun i => tset_contains cmp (rho i) z) x.
  Proof.
    intros H. induction x as [i|v|x IHx|c m x IHx y IHy]; cbn [t_run t_truth].
    - exists (rho i). auto.
    - exists (tset_constant v). split; [reflexivity|]. split; [apply sorted_nil|]. split; [reflexivity|].
      intros z. now destruct v.
    - destruct IHx as (a & -> & Sa & Fa & Ha). exists (tset_not a). split; [reflexivity|]. split; [exact Sa|].
      split; [cbn [tset_not ts_negated]; now rewrite Fa|]. intros z. rewrite (not_correct L) by exact Sa. now rewrite Ha.
    - destruct IHx as (a & -> & Sa & Fa & Ha), IHy as (b & -> & Sb & Fb & Hb). cbn [rbind].
      destruct (t_apply_ok c m a b Sa Sb) as (r & Q & S & F & Hr). exists r. split; [exact Q|]. split; [exact S|].
      split; [now rewrite F, Fa, Fb|]. intros z. now rewrite Hr, Ha, Hb.
  Qed.
  Lemma elems_memb r z : ok r -> memb cmp z (ts_elements r) = xorb (ts_negated r) (tset_contains cmp r z).
  Proof. intros S. rewrite (contains_memb L) by exact S. now destruct (ts_negated r), (memb cmp z (ts_elements r)). Qed.
  Lemma t_truth_ext b b' x : (forall i, b i = b' i) -> t_truth b x = t_truth b' x.
  Proof. intros H. induction x as [i|v|x IHx|c h x IHx y IHy]; cbn [t_truth]; [apply H|reflexivity|now rewrite IHx|now rewrite IHx, IHy]. Qed.
  Lemma const_ok (b : nat -> bool) i : ok (tset_constant (b i)).
  Proof. apply sorted_nil. Qed.
  Lemma empty_no_memb (l : list T) : (forall z, memb cmp z l = false) -> l = [].
  Proof.
    destruct l as [|z l]; [reflexivity|]. intros H. specialize (H z). unfold memb in H. cbn [existsb] in H.
    now rewrite (cmp_refl L) in H.
  Qed.
  (** on constants an expression gives the constant of its truth value *)
  Lemma const_run b x : exists r, t_run cmp strat (fun i => tset_constant (b i)) x = Ok r /\ r = tset_constant (t_truth b x).
  Proof.
    destruct (t_run_ok (fun i => tset_constant (b i)) x (const_ok b)) as (r & Q & S & F & H). exists r. split; [exact Q|].
    assert (F' : ts_negated r = t_truth b x) by (rewrite F; now apply t_truth_ext).
    assert (Em : ts_elements r = []).
    { apply empty_no_memb. intros z. rewrite elems_memb by exact S. rewrite F', H.
      rewrite (t_truth_ext (fun i => tset_contains cmp (tset_constant (b i)) z) b) by (intros i; unfold tset_contains; now destruct (b i)). now destruct (t_truth b x). }
    destruct r as [l n]. cbn [ts_elements ts_negated] in *. subst. reflexivity.
  Qed.
End Totals.

(** [==] compares the representation; still every identity holds, for every element type, finite ones
    included *)
Theorem C118_total_identities :
  forall (T : Type) (cmp : T -> T -> comparison) (strat : nat -> nat -> bool) (e1 e2 : texp),
    OrdLaws cmp ->
    ((forall b, t_truth b e1 = t_truth b e2) <->
     (forall rho, (forall i, tset_ok cmp (rho i)) ->
        exists r1 r2, t_run cmp strat rho e1 = Ok r1 /\ t_run cmp strat rho e2 = Ok r2 /\ tset_eqb cmp r1 r2 = true)).
Proof.
  intros T cmp strat e1 e2 L. split.
  - intros H rho Sr. destruct (t_run_ok L strat rho e1 Sr) as (r1 & Q1 & S1 & F1 & H1), (t_run_ok L strat rho e2 Sr) as (r2 & Q2 & S2 & F2 & H2).
    exists r1, r2. split; [exact Q1|]. split; [exact Q2|].
    assert (F : ts_negated r1 = ts_negated r2) by now rewrite F1, F2, H.
    unfold tset_eqb. apply andb_true_iff. split; [|rewrite F; apply Bool.eqb_reflx].
    apply (vset_eq_ext L); auto. intros z. rewrite <- !memb_spec, !(elems_memb L) by assumption.
    now rewrite H1, H2, H, F.
  - intros H b. destruct (const_run L strat b e1) as (r1 & Q1 & ->), (const_run L strat b e2) as (r2 & Q2 & ->).
    destruct (H (fun i => tset_constant (b i)) (const_ok b)) as (p1 & p2 & R1 & R2 & Q).
    rewrite R1 in Q1. injection Q1 as ->. rewrite R2 in Q2. injection Q2 as ->.
    unfold tset_eqb in Q. apply andb_true_iff in Q as [_ Q]. now apply Bool.eqb_prop in Q.
Qed.
Print Assumptions C118_total_identities.

Theorem C118_total_relations :
  forall (T : Type) (cmp : T -> T -> comparison) (strat : nat -> nat -> bool) (e1 e2 : texp),
    OrdLaws cmp ->
    ((forall b, t_truth b e1 = true -> t_truth b e2 = true) <->
     (forall rho, (forall i, tset_ok cmp (rho i)) ->
        exists r1 r2, t_run cmp strat rho e1 = Ok r1 /\ t_run cmp strat rho e2 = Ok r2 /\
          tset_is_subset cmp strat r1 r2 = Ok true)) /\
    ((forall b, t_truth b e1 = true -> t_truth b e2 = true -> False) <->
     (forall rho, (forall i, tset_ok cmp (rho i)) ->
        exists r1 r2, t_run cmp strat rho e1 = Ok r1 /\ t_run cmp strat rho e2 = Ok r2 /\
          tset_is_disjoint cmp strat r1 r2 = Ok true)) /\
    (** tautologies and contradictions *)
    ((forall b, t_truth b e1 = true) <->
     (forall rho, (forall i, tset_ok cmp (rho i)) -> exists r, t_run cmp strat rho e1 = Ok r /\ tset_is_all r = true)) /\
    ((forall b, t_truth b e1 = false) <->
     (forall rho, (forall i, tset_ok cmp (rho i)) -> exists r, t_run cmp strat rho e1 = Ok r /\ tset_is_empty r = true)).
Proof.
  intros T cmp strat e1 e2 L.
  assert (X : forall e rho, (forall i, tset_ok cmp (rho i)) -> exists l n, t_run cmp strat rho e = Ok (TSet l n) /\ sorted cmp l /\
     n = t_truth (fun i => ts_negated (rho i)) e /\ forall z, memb cmp z l = xorb n (t_truth (fun i => tset_contains cmp (rho i) z) e)).
  { intros e rho Sr. destruct (t_run_ok L strat rho e Sr) as ([l n] & Q & S & F & H). exists l, n. split; [exact Q|]. split; [exact S|].
    split; [exact F|]. intros z. pose proof (elems_memb L (TSet l n) z S) as M. cbn [ts_elements ts_negated] in M. now rewrite M, H. }
  split; [|split; [|split]]; split.
  - intros H rho Sr. destruct (X e1 rho Sr) as (l1 & n1 & Q1 & S1 & F1 & M1), (X e2 rho Sr) as (l2 & n2 & Q2 & S2 & F2 & M2).
    exists (TSet l1 n1), (TSet l2 n2). split; [exact Q1|]. split; [exact Q2|].
    destruct (C09_predicates_decide T cmp strat l1 l2 L S1 S2) as ((rd & Ed & Rd) & (rs & Es & Rs) & (rp & Ep & Rp)).
    pose proof (H (fun i => ts_negated (rho i))) as Hn. rewrite <- F1, <- F2 in Hn.
    assert (Hz : forall z, (memb cmp z l1 = true -> xorb n1 (memb cmp z l1) = true -> xorb n2 (memb cmp z l2) = true) /\
       (xorb n1 (memb cmp z l1) = true -> xorb n2 (memb cmp z l2) = true)).
    { intros z. assert (G : xorb n1 (memb cmp z l1) = true -> xorb n2 (memb cmp z l2) = true); [|now split].
      rewrite M1, M2, <- !Bool.xorb_assoc, !Bool.xorb_nilpotent, !Bool.xorb_false_l. apply H. }
    unfold tset_is_subset. cbn [ts_negated ts_elements].
    destruct n1, n2.
    + rewrite Ep. f_equal. apply Rp. intros z. rewrite <- !memb_spec. destruct (Hz z) as [_ G]. rewrite ?Bool.xorb_false_l in G.
      destruct (memb cmp z l1), (memb cmp z l2); cbn [negb] in G; auto; try (symmetry; apply G; reflexivity).
    + discriminate (Hn eq_refl).
    + rewrite Ed. f_equal. apply Rd. intros z. rewrite <- !memb_spec. destruct (Hz z) as [_ G]. rewrite ?Bool.xorb_false_l in G.
      intros [A B]. rewrite A, B in G. cbn [xorb] in G. discriminate (G eq_refl).
    + rewrite Es. f_equal. apply Rs. intros z. rewrite <- !memb_spec. destruct (Hz z) as [_ G]. rewrite !Bool.xorb_false_l in G. exact G.
  - intros H b. destruct (const_run L strat b e1) as (r1 & Q1 & ->), (const_run L strat b e2) as (r2 & Q2 & ->).
    destruct (H (fun i => tset_constant (b i)) (const_ok b)) as (p1 & p2 & R1 & R2 & Q).
    rewrite R1 in Q1. injection Q1 as ->. rewrite R2 in Q2. injection Q2 as ->.
    intros A. rewrite A in Q. destruct (t_truth b e2); [reflexivity|]. discriminate Q.
  - intros H rho Sr. destruct (X e1 rho Sr) as (l1 & n1 & Q1 & S1 & F1 & M1), (X e2 rho Sr) as (l2 & n2 & Q2 & S2 & F2 & M2).
    exists (TSet l1 n1), (TSet l2 n2). split; [exact Q1|]. split; [exact Q2|].
    destruct (C09_predicates_decide T cmp strat l1 l2 L S1 S2) as ((rd & Ed & Rd) & (rs & Es & Rs) & (rp & Ep & Rp)).
    pose proof (H (fun i => ts_negated (rho i))) as Hn. rewrite <- F1, <- F2 in Hn.
    assert (G : forall z, xorb n1 (memb cmp z l1) = true -> xorb n2 (memb cmp z l2) = true -> False).
    { intros z. rewrite M1, M2, <- !Bool.xorb_assoc, !Bool.xorb_nilpotent, !Bool.xorb_false_l. apply H. }
    unfold tset_is_disjoint. cbn [ts_negated ts_elements]. destruct n1, n2.
    + exfalso. exact (Hn eq_refl eq_refl).
    + rewrite Ep. f_equal. apply Rp. intros z. rewrite <- !memb_spec. specialize (G z). rewrite ?Bool.xorb_false_l in G.
      destruct (memb cmp z l1), (memb cmp z l2); cbn [xorb negb] in G; auto; exfalso; auto.
    + rewrite Es. f_equal. apply Rs. intros z. rewrite <- !memb_spec. specialize (G z). rewrite ?Bool.xorb_false_l in G.
      destruct (memb cmp z l1), (memb cmp z l2); cbn [xorb negb] in G; auto; exfalso; auto.
    + rewrite Ed. f_equal. apply Rd. intros z. rewrite <- !memb_spec. specialize (G z). rewrite ?Bool.xorb_false_l in G.
      intros [A B]. exact (G A B).
  - intros H b. destruct (const_run L strat b e1) as (r1 & Q1 & ->), (const_run L strat b e2) as (r2 & Q2 & ->).
    destruct (H (fun i => tset_constant (b i)) (const_ok b)) as (p1 & p2 & R1 & R2 & Q).
    rewrite R1 in Q1. injection Q1 as ->. rewrite R2 in Q2. injection Q2 as ->.
    intros A B. rewrite A, B in Q. discriminate Q.
  - intros H rho Sr. destruct (X e1 rho Sr) as (l1 & n1 & Q1 & S1 & F1 & M1). exists (TSet l1 n1). split; [exact Q1|].
    rewrite H in F1. subst n1. rewrite (empty_no_memb L l1); [reflexivity|]. intros z. rewrite M1, H. reflexivity.
  - intros H b. destruct (const_run L strat b e1) as (r1 & Q1 & ->).
    destruct (H (fun i => tset_constant (b i)) (const_ok b)) as (p1 & R1 & Q). rewrite R1 in Q1. injection Q1 as ->.
    unfold tset_is_all in Q. apply andb_true_iff in Q as [Q _]. exact Q.
  - intros H rho Sr. destruct (X e1 rho Sr) as (l1 & n1 & Q1 & S1 & F1 & M1). exists (TSet l1 n1). split; [exact Q1|].
    rewrite H in F1. subst n1. rewrite (empty_no_memb L l1); [reflexivity|]. intros z. rewrite M1, H. reflexivity.
  - intros H b. destruct (const_run L strat b e1) as (r1 & Q1 & ->).
    destruct (H (fun i => tset_constant (b i)) (const_ok b)) as (p1 & R1 & Q). rewrite R1 in Q1. injection Q1 as ->.
    unfold tset_is_empty in Q. apply andb_true_iff in Q as [Q _]. now destruct (t_truth b e1).
Qed.
Print Assumptions C118_total_relations.

(** ** A concrete case: De Morgan with three variables, mixed forms, on sets that overlap *)
Example C118_witness :
  let e1 := TNot (TOp And true (TVar 0) (TOp Minus false (TVar 1) (TVar 2))) in
  let e2 := TOp Or false (TNot (TVar 0)) (TOp Or true (TNot (TVar 1)) (TVar 2)) in
  let rho i := match i with 0 => TSet [1;2;3] true | 1 => TSet [2;4] false | _ => TSet [4;5] false end in
  (forall b, t_truth b e1 = t_truth b e2) /\ (forall i, tset_ok Nat.compare (rho i)) /\
  t_run Nat.compare alt rho e1 = Ok (TSet [] true) /\ t_run Nat.compare alt rho e2 = Ok (TSet [] true) /\
  t_run Nat.compare alt rho (TOp Minus false (TVar 0) (TVar 1)) = Ok (TSet [1;2;3;4] true).
Proof.
  cbv zeta. split; [intros b; cbn [t_truth conn_bool]; destruct (b 0), (b 1), (b 2); reflexivity|].
  split; [intros [|[|i]]; now apply sortedb_ok|]. split; [vm_compute; reflexivity|]. split; vm_compute; reflexivity.
Qed.
Example C118_set_witness :
  let e1 := SOp Minus AssignMoved (SOp Or ByRef (SVar 0) (SVar 1)) (SOp And AssignBorrowed (SVar 0) (SVar 1)) in
  let e2 := SOp Xor AssignMoved (SVar 0) (SVar 1) in
  let rho i := match i with 0 => [1;2;3;7] | _ => [2;3;4] end in
  (forall b, s_truth b e1 = s_truth b e2) /\ (forall i, sorted Nat.compare (rho i)) /\
  s_run Nat.compare alt rho e1 = Ok [1;4;7] /\ s_run Nat.compare alt rho e2 = Ok [1;4;7].
Proof.
  cbv zeta. split; [intros b; cbn [s_truth conn_bool]; destruct (b 0), (b 1); reflexivity|].
  split; [intros [|i]; now apply sortedb_ok|]. split; vm_compute; reflexivity.
Qed.

(** C137: a panic in the user code that a radix tree operation runs reaches the caller of the operation, and no user
    code runs after it; on usable trees every panic is of this kind. *)
From Verif Require Import PanicRadix RadixUserSetModel PropRadixUser.

(** ** Specification *)
Section Spec.
  Context {E : Type} (log : E -> list bool).
  Definition returned {Y} (r : cres Y) : bool := match r with Ret _ => true | Throw => false end.
  (** user code that leaves in its world, at every call, whether the call returned *)
  Definition records {X Y} (f : clos E X Y) : Prop := forall e x, log (fst (f e x)) = log e ++ [returned (snd (f e x))].
  Definition records_mut {V X} (f : mclos E V X) : Prop :=
    forall e v x, log (fst (fst (f e v x))) = log e ++ [returned (snd (f e v x))].
  Definition records_code {K} (u : ucode E K) : Prop := records (u_eq u) /\ records (u_cmp u) /\ records (u_lt u).
  (** between two moments all calls returned; all but the last did *)
  Definition all_returned (e e' : E) : Prop := exists n, log e' = log e ++ repeat true n.
  Definition last_panicked (e e' : E) : Prop := exists n, log e' = log e ++ repeat true n ++ [false].
  (** what a call that started in the world [e] does with panics: it returns only if no user code panicked; if it
      panics, then because the last user code called panicked, and no other did. (Operands that are not usable can also
      make the operation itself panic.) *)
  Definition panics_pass {Y} (e : E) (fit : Prop) (r : done (Y * E)) : Prop :=
    match r with
    | Done (_, e') => all_returned e e'
    | Unwound (_, e') => last_panicked e e' \/ all_returned e e' /\ ~ fit
    | DoneNoFuel => False
    end.
  Definition panics_pass_b {Y} (e : E) (fit : Prop) (r : given_back E Y) : Prop :=
    match r with
    | Some (e', Ret _) => all_returned e e'
    | Some (e', Throw) => last_panicked e e' \/ all_returned e e' /\ ~ fit
    | None => False
    end.
End Spec.

(** ** Links *)
(** the same user code with every panic replaced by some answer *)
Definition calmed {E X Y} (d : X -> Y) (f : clos E X Y) : clos E X Y := fun e x =>
  match f e x with (e', Ret y) => (e', Ret y) | (e', Throw) => (e', Ret (d x)) end.
Definition calmed_mut {E V X} (f : mclos E V X) : mclos E V X := fun e v x =>
  match f e v x with (e', v', Ret y) => (e', v', Ret y) | (e', v', Throw) => (e', v', Ret false) end.
Definition calmed_code {E K} (u : ucode E K) : ucode E K :=
  Ucode (calmed (fun _ => false) (u_eq u)) (calmed (fun _ => Eq) (u_cmp u)) (calmed (fun _ => false) (u_lt u)).
Lemma calmed_calm {E X Y} d (f : clos E X Y) : calm (calmed d f).
Proof. intros e x. unfold calmed. now destruct (f e x) as [e' [y|]]. Qed.
Lemma calmed_mut_calm {E V X} (f : mclos E V X) : calm_mut (calmed_mut f).
Proof. intros e v x. unfold calmed_mut. now destruct (f e v x) as [[e' v'] [y|]]. Qed.
Lemma calmed_code_calm {E K} (u : ucode E K) : calm_code (calmed_code u).
Proof. repeat split; apply calmed_calm. Qed.
Lemma insert_calm {E V} (cl : clos E V V) : calm cl -> calm_mut (insert_clos cl).
Proof. intros C e a b. unfold insert_clos. specialize (C e b). destruct (cl e b) as [e' [b'|]]; cbn [snd] in *; [discriminate|now destruct C]. Qed.
Lemma first_calm {E V X} (cl : clos E V V) : calm cl -> calm (first_clone (X := X) cl).
Proof. intros C e [a b]. unfold first_clone. cbn [fst]. specialize (C e a). destruct (cl e a) as [e' [b'|]]; cbn [snd] in *; [discriminate|now destruct C]. Qed.
Lemma unless_calm {E V X} (cl : clos E V V) : calm cl -> calm (clone_unless (X := X) cl).
Proof.
  intros C e [a [b|]]; unfold clone_unless; cbn [fst snd]; [discriminate|].
  specialize (C e a). destruct (cl e a) as [e' [b'|]]; cbn [snd] in *; [discriminate|now destruct C].
Qed.

Section Links.
  Context {E : Type} (log : E -> list bool) (e0 : E).
  Notation Q := (all_returned log e0).
  Notation T := (last_panicked log e0).
  Lemma start : Q e0.
  Proof. exists 0. now rewrite app_nil_r. Qed.
  Lemma repeat_snoc n : repeat true n ++ [true] = repeat true (S n).
  Proof. induction n as [|n IH]; [reflexivity|]. cbn [repeat app]. now rewrite IH. Qed.
  Lemma records_fine {X Y} d (f : clos E X Y) : records log f -> fine Q T f (calmed d f).
  Proof.
    intros R e x (n & H). unfold calmed. specialize (R e x). destruct (f e x) as [e' [y|]]; cbn [fst snd returned] in R; rewrite H in R.
    - split; [|reflexivity]. exists (S n). now rewrite R, <- app_assoc, repeat_snoc.
    - exists n. now rewrite R, <- app_assoc.
  Qed.
  Lemma records_fine_mut {V X} (f : mclos E V X) : records_mut log f -> fine_mut Q T f (calmed_mut f).
  Proof.
    intros R e v x (n & H). unfold calmed_mut. specialize (R e v x). destruct (f e v x) as [[e' v'] [y|]]; cbn [fst snd returned] in R; rewrite H in R.
    - split; [|reflexivity]. exists (S n). now rewrite R, <- app_assoc, repeat_snoc.
    - exists n. now rewrite R, <- app_assoc.
  Qed.
  Lemma insert_fine {V} (cl cl' : clos E V V) : fine Q T cl cl' -> fine_mut Q T (insert_clos cl) (insert_clos cl').
  Proof. intros F e a b H. unfold insert_clos. specialize (F e b H). destruct (cl e b) as [e' [b'|]]; [|exact F]. destruct F as [F ->]. auto. Qed.
  Lemma first_fine {V X} (cl cl' : clos E V V) : fine Q T cl cl' -> fine Q T (first_clone (X := X) cl) (first_clone cl').
  Proof. intros F e [a b] H. unfold first_clone. cbn [fst]. specialize (F e a H). destruct (cl e a) as [e' [b'|]]; [|exact F]. destruct F as [F ->]. auto. Qed.
  Lemma unless_fine {V X} (cl cl' : clos E V V) : fine Q T cl cl' -> fine Q T (clone_unless (X := X) cl) (clone_unless cl').
  Proof.
    intros F e [a [b|]] H; unfold clone_unless; cbn [fst snd]; [auto|].
    specialize (F e a H). destruct (cl e a) as [e' [b'|]]; [|exact F]. destruct F as [F ->]. auto.
  Qed.
  Lemma const_fine {V X} (b : bool) : fine_mut Q T (fun e (v : V) (_ : X) => (e, v, Ret b)) (fun e v _ => (e, v, Ret b)).
  Proof. intros e v x H. auto. Qed.
  Lemma ip_pass {K V X} (u' : ucode E K) (P : Prop) (self : rtree K V) (that : rtree K X) r r' :
    P -> trd Q T r r' -> in_place_ok u' P self that r' -> panics_pass log e0 (usable self /\ usable that) r.
  Proof.
    intros HP. destruct r as [[t e]|[t e]|]; cbn [trd panics_pass].
    - intros [H _] _. exact H.
    - intros [H|[H ->]] K1; [auto|right]. split; [exact H|]. intros [U1 U2]. destruct K1 as [_ K1]. now apply K1.
    - intros ->. auto.
  Qed.
  Lemma b_pass {Y} (P fit : Prop) (good : Y -> Prop) r r' :
    P -> tri Q T r r' -> borrowing_ok (E := E) P fit good r' -> panics_pass_b log e0 fit r.
  Proof.
    intros HP. destruct r as [[e [y|]]|]; cbn [tri panics_pass_b].
    - intros [H _] _. exact H.
    - intros [H|[H ->]] K1; [auto|right]. split; [exact H|]. intros U. now apply K1.
    - intros ->. auto.
  Qed.
End Links.

(** ** C137 *)
Section C137.
  Context {E K : Type} (log : E -> list bool) (u : ucode E K) (RU : records_code log u) (strat : nat -> nat -> bool).
  Notation u' := (calmed_code u).
  Notation kl := (calmed (fun v => v)).
  Let FE e0 : fine (all_returned log e0) (last_panicked log e0) (u_eq u) (u_eq u').
  Proof. apply records_fine, RU. Qed.
  Let FC e0 : fine (all_returned log e0) (last_panicked log e0) (u_cmp u) (u_cmp u').
  Proof. apply records_fine, RU. Qed.
  Let FL e0 : fine (all_returned log e0) (last_panicked log e0) (u_lt u) (u_lt u').
  Proof. apply records_fine, RU. Qed.
  Ltac calms := repeat split; first [apply calmed_calm|apply calmed_mut_calm|apply insert_calm|apply first_calm|apply unless_calm|now intros ? ? ?|idtac]; try apply calmed_calm.

  Theorem C137_in_place :
    (forall V (cl : clos E V V) (f : mclos E V V), records log cl -> records_mut log f -> forall self that e,
      panics_pass log e (usable self /\ usable that) (urt_outer_combine_with u strat cl f self that e)) /\
    (forall V (cl : clos E V V), records log cl -> forall self key (v : V) e,
      panics_pass log e (usable self) (urt_insert u strat cl self key v e)) /\
    (forall V X (cx : clos E X X) (f : mclos E V X), records log cx -> records_mut log f -> forall self that e,
      panics_pass log e (usable self /\ usable that) (urt_inner_combine_with u strat cx f self that e)) /\
    (forall V X (cx : clos E X X) (f : mclos E V X), records log cx -> records_mut log f -> forall self that e,
      panics_pass log e (usable self /\ usable that) (urt_left_combine_with u strat cx f self that e)) /\
    (forall V X (cx : clos E X X) (f : clos E X bool), records log cx -> records log f -> forall (self : rtree K V) that e,
      panics_pass log e (usable self /\ usable that) (urt_remove_prefix_with u strat cx f self that e)) /\
    (forall V X (cx : clos E X X) (f : clos E X bool), records log cx -> records log f -> forall (self : rtree K V) that e,
      panics_pass log e (usable self /\ usable that) (urt_retain_prefix_with u strat cx f self that e)).
  Proof using RU.
    pose proof (C116_in_place u' strat) as (T1 & T2 & T3 & T4 & T5 & T6). repeat apply conj; intros.
    - eapply ip_pass; [|apply t_outer_with; [apply FE|apply FC|apply FL|now apply (records_fine _ _ (fun v => v))|now apply records_fine_mut|apply start]|apply T1]. calms.
    - assert (H1 : panics_pass log e (usable self /\ usable (rt_single key v)) (urt_insert u strat cl self key v e)).
      { eapply ip_pass; [|apply t_outer_with; [apply FE|apply FC|apply FL|now apply (records_fine _ _ (fun v => v))|now apply insert_fine, (records_fine _ _ (fun v => v))|apply start]|apply T2]. calms. }
      assert (H2 : usable (rt_single key v)) by (now apply usable_shaped).
      destruct (urt_insert u strat cl self key v e) as [[t e']|[t e']|]; cbn [panics_pass] in *; tauto.
    - eapply ip_pass; [|apply t_inner_with; [apply FE|apply FC|now apply (records_fine _ _ (fun v => v))|now apply records_fine_mut|apply start]|apply T3]. calms.
    - eapply ip_pass; [|apply t_left_with; [apply FE|apply FC|now apply (records_fine _ _ (fun v => v))|now apply records_fine_mut|apply start]|apply T4]. calms.
    - eapply ip_pass; [|apply t_remove_with; [apply FE|apply FC|now apply (records_fine _ _ (fun v => v))|now apply (records_fine _ _ (fun _ => false))|apply start]|apply T5]. calms.
    - eapply ip_pass; [|apply t_retain_with; [apply FE|apply FC|now apply (records_fine _ _ (fun v => v))|now apply (records_fine _ _ (fun _ => false))|apply start]|apply T6]. calms.
  Qed.

  Theorem C137_building :
    (forall V (cl : clos E V V) (f : clos E (V * V) (option V)), records log cl -> records log f -> forall a b e,
      panics_pass_b log e (usable a /\ usable b) (urt_outer_combine u strat cl f a b e)) /\
    (forall V X (cl : clos E V V) (cx : clos E X X) (f : clos E (V * X) (option V)), records log cl -> records log cx -> records log f -> forall a b e,
      panics_pass_b log e (usable a /\ usable b) (urt_inner_combine u strat cl cx f a b e)) /\
    (forall V X (cl : clos E V V) (cx : clos E X X) (f : clos E (V * option X) (option V)), records log cl -> records log cx -> records log f -> forall a b e,
      panics_pass_b log e (usable a /\ usable b) (urt_left_combine u strat cl cx f a b e)) /\
    (forall V (cl : clos E V V), records log cl -> forall (t : rtree K V) prefix e,
      panics_pass_b log e (usable t) (urt_filter_prefix u cl t prefix e)).
  Proof using RU.
    pose proof (C116_building u' strat) as (T1 & T2 & T3 & T4). repeat apply conj; intros.
    - eapply b_pass; [|apply t_outer; [apply FE|apply FC|apply FL|now apply (records_fine _ _ (fun v => v))|now apply (records_fine _ _ (fun _ => None))|apply start]|apply T1]. calms.
    - eapply b_pass; [|apply t_inner; [apply FE|apply FC|now apply (records_fine _ _ (fun v => v))|now apply (records_fine _ _ (fun v => v))|now apply (records_fine _ _ (fun _ => None))|apply start]|apply T2]. calms.
    - eapply b_pass; [|apply t_left; [apply FE|apply FC|now apply (records_fine _ _ (fun v => v))|now apply (records_fine _ _ (fun v => v))|now apply (records_fine _ _ (fun _ => None))|apply start]|apply T3]. calms.
    - eapply b_pass; [|apply t_filter_prefix; [apply FE|apply FC|now apply (records_fine _ _ (fun v => v))|apply start]|apply T4]. calms.
  Qed.

  Theorem C137_questions :
    (forall V X (a : rtree K V) (b : rtree K X) e,
      panics_pass_b log e (usable a /\ usable b) (urt_intersects u strat a b e) /\
      panics_pass_b log e (usable a /\ usable b) (urt_is_subset u strat a b e) /\
      panics_pass_b log e (usable a /\ usable b) (urt_is_disjoint u strat a b e) /\
      panics_pass_b log e (usable a /\ usable b) (urt_is_superset u strat a b e)) /\
    (forall V (t : rtree K V) key e,
      panics_pass_b log e (usable t) (urt_get u t key e) /\
      panics_pass_b log e (usable t) (urt_contains_key u t key e) /\
      panics_pass_b log e (usable t) (urt_scan_prefix u t key e)).
  Proof using RU.
    pose proof (C116_questions u' strat) as (T1 & T2).
    assert (I1 : forall V X (a : rtree K V) (b : rtree K X) e, panics_pass_b log e (usable a /\ usable b) (urt_intersects u strat a b e)).
    { intros. eapply b_pass; [|apply t_intersects0; [apply FE|apply FC|apply start]|apply T1]. calms. }
    assert (I2 : forall V X (a : rtree K V) (b : rtree K X) e, panics_pass_b log e (usable a /\ usable b) (urt_is_subset u strat a b e)).
    { intros. eapply b_pass; [|apply t_is_subset0; [apply FE|apply FC|apply start]|apply T1]. calms. }
    split; intros; repeat apply conj.
    - apply I1.
    - apply I2.
    - specialize (I1 V X a b e). unfold urt_is_disjoint. now destruct (urt_intersects u strat a b e) as [[e' [q|]]|].
    - specialize (I2 X V b a e). unfold urt_is_superset. destruct (urt_is_subset u strat b a e) as [[e' [q|]]|]; cbn [panics_pass_b] in *; tauto.
    - eapply b_pass; [|apply t_get; [apply FE|apply FC|apply start]|apply T2]. calms.
    - eapply b_pass; [|apply t_contains_key; [apply FE|apply FC|apply start]|apply T2]. calms.
    - eapply b_pass; [|apply t_scan_prefix; [apply FE|apply FC|apply start]|apply T2]. calms.
  Qed.

  (** the set operations: the user code is that of the keys and the [Clone] of the values *)
  Theorem C137_set_operations :
    (forall V (cl : clos E V V), records log cl -> forall (a b : rtree K V) e,
      panics_pass_b log e (usable a /\ usable b) (urt_union u strat cl a b e) /\
      panics_pass log e (usable a /\ usable b) (urt_union_with u strat cl a b e)) /\
    (forall V X (cl : clos E V V) (cx : clos E X X), records log cl -> records log cx -> forall (a : rtree K V) (b : rtree K X) e,
      panics_pass_b log e (usable a /\ usable b) (urt_intersection u strat cl cx a b e) /\
      panics_pass_b log e (usable a /\ usable b) (urt_difference u strat cl cx a b e) /\
      panics_pass log e (usable a /\ usable b) (urt_intersection_with u strat cx a b e) /\
      panics_pass log e (usable a /\ usable b) (urt_difference_with u strat cx a b e)).
  Proof using RU.
    pose proof (C116_in_place u' strat) as (T1 & _ & T3 & T4 & _). pose proof (C116_building u' strat) as (B1 & B2 & B3 & _).
    repeat apply conj; intros; repeat apply conj.
    - eapply b_pass; [|apply t_outer; [apply FE|apply FC|apply FL|now apply (records_fine _ _ (fun v => v))|now apply first_fine, (records_fine _ _ (fun v => v))|apply start]|apply B1]. calms.
    - eapply ip_pass; [|apply t_outer_with; [apply FE|apply FC|apply FL|now apply (records_fine _ _ (fun v => v))|apply const_fine|apply start]|apply T1]. calms.
    - eapply b_pass; [|apply t_inner; [apply FE|apply FC|now apply (records_fine _ _ (fun v => v))|now apply (records_fine _ _ (fun v => v))|now apply first_fine, (records_fine _ _ (fun v => v))|apply start]|apply B2]. calms.
    - eapply b_pass; [|apply t_left; [apply FE|apply FC|now apply (records_fine _ _ (fun v => v))|now apply (records_fine _ _ (fun v => v))|now apply unless_fine, (records_fine _ _ (fun v => v))|apply start]|apply B3]. calms.
    - eapply ip_pass; [|apply t_inner_with; [apply FE|apply FC|now apply (records_fine _ _ (fun v => v))|apply const_fine|apply start]|apply T3]. calms.
    - eapply ip_pass; [|apply t_left_with; [apply FE|apply FC|now apply (records_fine _ _ (fun v => v))|apply const_fine|apply start]|apply T4]. calms.
  Qed.
End C137.

(** ** Witnesses *)
(** any user code can be made to record its calls *)
Definition recording {E X Y} (f : clos E X Y) : clos (E * list bool) X Y := fun s x =>
  let (e, r) := f (fst s) x in ((e, snd s ++ [returned r]), r).
Definition recording_mut {E V X} (f : mclos E V X) : mclos (E * list bool) V X := fun s v x =>
  let '(e, v', r) := f (fst s) v x in ((e, snd s ++ [returned r]), v', r).
Lemma recording_records {E X Y} (f : clos E X Y) : records snd (recording f).
Proof. intros [e l] x. unfold recording. cbn [fst snd]. now destruct (f e x). Qed.
Lemma recording_mut_records {E V X} (f : mclos E V X) : records_mut snd (recording_mut f).
Proof. intros [e l] v x. unfold recording_mut. cbn [fst snd]. now destruct (f e v x) as [[? ?] ?]. Qed.
Definition recorded_tired : ucode (nat * list bool) nat :=
  Ucode (recording (u_eq tired_code)) (recording (u_cmp tired_code)) (recording (u_lt tired_code)).
Example recorded_tired_records : records_code snd recorded_tired.
Proof. repeat split; apply recording_records. Qed.
(** a panic of the tenth call reaches the caller; with enough budget there is none *)
Example panic_reaches :
  urt_outer_combine_with recorded_tired (fun _ _ => true) (recording (tired (fun v => v))) (recording_mut sum_mut) tree1 tree2 (9, []) =
    Unwound (Node [] (Some 0) [Node [1; 2] (Some 12) [Node [3] (Some 132) []]; Node [4] (Some 40) []], (0, repeat true 9 ++ [false])) /\
  urt_outer_combine_with recorded_tired (fun _ _ => true) (recording (tired (fun v => v))) (recording_mut sum_mut) tree1 tree2 (30, []) =
    Done (Node [] (Some 0) [Node [1; 2] (Some 12) [Node [3] (Some 132) []]; Node [4] (Some 40) []; Node [5] (Some 50) []], (20, repeat true 10)).
Proof. split; vm_compute; reflexivity. Qed.
(** the exception for operands that are not usable is needed: nobody panicked here but the operation *)
Definition all_calm : ucode (list bool) nat :=
  Ucode (fun l p => (l ++ [true], Ret (Nat.eqb (fst p) (snd p)))) (fun l p => (l ++ [true], Ret (Nat.compare (fst p) (snd p))))
        (fun l p => (l ++ [true], Ret (fst p <? snd p))).
Example unusable_panics :
  records_code (fun l => l) all_calm /\
  urt_intersects all_calm (fun _ _ => true) (Node [] None [Node [] (Some 1) []]) tree1 [] = Some ([], Throw).
Proof. split; [repeat split|]; reflexivity. Qed.

Print Assumptions C137_in_place.
Print Assumptions C137_building.
Print Assumptions C137_questions.
Print Assumptions C137_set_operations.

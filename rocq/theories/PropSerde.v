(** Theorems, part 45: serializing and deserializing with a serializer or deserializer that does anything. *)
From Verif Require Import VecSetHist VecMapSpec VecMapFacts StdFacts DedupFacts PropSet PropMap.
From Verif Require Import SerdeModel SerdeSpec.

(** ** C128: serializing *)
(** the serializer receives the calls of the script, in order, up to the first that does not succeed *)
Theorem C128_serialize {T Out X E : Type} (s : serializer T Out X E) (l : list T) (e : E) :
  exists done c rest e1, script l = done ++ c :: rest /\ accepts s done e e1 /\
    match ser_answer s c e1 with
    | (e2, Ret (inl (Some out))) => rest = [] /\ serialize_to s l e = (e2, Ret (inl out))
    | (_, Ret (inl None)) => False
    | (e2, Ret (inr err)) => serialize_to s l e = (e2, Ret (inr err))
    | (e2, Throw) => serialize_to s l e = (e2, Throw)
    end.
Proof.
  unfold serialize_to, script.
  destruct (se_begin s e (Some (length l))) as [e1 [[[]|err]|]] eqn:B.
  2:{ exists [], (Begin (Some (length l))), (map Item l ++ [End]), e. split; [reflexivity|]. split; [constructor|]. cbn [ser_answer]. now rewrite B. }
  2:{ exists [], (Begin (Some (length l))), (map Item l ++ [End]), e. split; [reflexivity|]. split; [constructor|]. cbn [ser_answer]. now rewrite B. }
  assert (G : exists done c rest e2, map Item l ++ [End] = done ++ c :: rest /\ accepts s done e1 e2 /\
    match ser_answer s c e2 with
    | (e3, Ret (inl (Some out))) => rest = [] /\ ser_items s l e1 = (e3, Ret (inl out))
    | (_, Ret (inl None)) => False
    | (e3, Ret (inr err)) => ser_items s l e1 = (e3, Ret (inr err))
    | (e3, Throw) => ser_items s l e1 = (e3, Throw)
    end).
  { clear B. revert e1. induction l as [|x l IH]; intros e1; cbn [map app ser_items].
    - exists [], End, [], e1. split; [reflexivity|]. split; [constructor|]. cbn [ser_answer].
      destruct (se_end s e1 tt) as [e2 [[o|err]|]]; [split; reflexivity|reflexivity|reflexivity].
    - destruct (se_item s e1 x) as [e2 [[[]|err]|]] eqn:Q.
      + destruct (IH e2) as (d & c & r & e3 & H1 & H2 & H3). exists (Item x :: d), c, r, e3. split; [now rewrite H1|]. split; [|exact H3].
        apply (accepts_cons s (Item x) d e1 e2 e3 None); [|exact H2]. cbn [ser_answer]. now rewrite Q.
      + exists [], (Item x), (map Item l ++ [End]), e1. split; [reflexivity|]. split; [constructor|]. cbn [ser_answer]. now rewrite Q.
      + exists [], (Item x), (map Item l ++ [End]), e1. split; [reflexivity|]. split; [constructor|]. cbn [ser_answer]. now rewrite Q. }
  destruct G as (d & c & r & e2 & H1 & H2 & H3). exists (Begin (Some (length l)) :: d), c, r, e2.
  split; [cbn [app]; now rewrite H1|]. split; [|exact H3].
  apply (accepts_cons s (Begin (Some (length l))) d e e1 e2 None); [|exact H2]. cbn [ser_answer]. now rewrite B.
Qed.

(** ** C128: deserializing *)
Section Dedup.
  Context {T E : Type} (same : clos E (T * T) bool).
  Lemma udedup_from_any : forall l x e, match udedup_from same x l e with
    | (_, Ret r) => incl r (x :: l)
    | (e', Throw) => threw same e'
    end.
  Proof using.
    induction l as [|y l IH]; intros x e; cbn [udedup_from]; [apply incl_refl|].
    destruct (same e (y, x)) as [e1 [[|]|]] eqn:Q.
    - pose proof (IH x e1) as H. destruct (udedup_from same x l e1) as [e2 [r|]]; [|exact H].
      intros z Hz. apply H in Hz as [<-|Hz]; [now left|now right; right].
    - pose proof (IH y e1) as H. destruct (udedup_from same y l e1) as [e2 [r|]]; [|exact H].
      intros z [<-|Hz]; [now left|right; now apply H].
    - exists e, (y, x). exact Q.
  Qed.
  Lemma udedup_any l e : match udedup same l e with (_, Ret r) => incl r l | (e', Throw) => threw same e' end.
  Proof using. destruct l as [|x l]; [apply incl_refl|]. apply udedup_from_any. Qed.
  Context (eqb : T -> T -> bool) (SA : forall e x y e' q, same e (x, y) = (e', Ret q) -> q = eqb x y).
  Lemma udedup_from_like : forall l x e e' r, udedup_from same x l e = (e', Ret r) -> r = dedup_from eqb x l.
  Proof using SA.
    induction l as [|y l IH]; intros x e e' r; cbn [udedup_from dedup_from]; [now intros [= _ <-]|].
    destruct (same e (y, x)) as [e1 [q|]] eqn:Q; [|discriminate]. apply SA in Q. rewrite <- Q. destruct q; [apply IH|].
    destruct (udedup_from same y l e1) as [e2 [r2|]] eqn:R; [|discriminate]. intros [= _ <-]. f_equal. eapply IH. exact R.
  Qed.
  Lemma udedup_like l e e' r : udedup same l e = (e', Ret r) -> r = dedup eqb l.
  Proof using SA. destruct l as [|x l]; [now intros [= _ <-]|]. apply udedup_from_like. Qed.
End Dedup.

Lemma take_all_delivers {T X E : Type} (a : seq_access T X E) e xs e' st : delivers (sa_next a) e xs e' st ->
  forall fuel acc, length xs < fuel ->
  take_all a fuel acc e = Some (e', match st with Ended => Ret (inl (acc ++ xs)) | Failed x => Ret (inr x) | Panics => Throw end).
Proof.
  intros D. induction D as [e e' H|e e' x H|e e' H|e e1 e' x xs st H D IH]; intros [|fuel] acc F; try (cbn [length] in F; lia); cbn [take_all]; rewrite H.
  - now rewrite app_nil_r.
  - reflexivity.
  - reflexivity.
  - cbn [length] in F. rewrite (IH fuel (acc ++ [x])) by lia. now rewrite <- app_assoc.
Qed.

Section C128Visit.
  Context {T X E : Type} (srt : list T -> E -> (list T * bool) * E) (same : clos E (T * T) bool) (a : seq_access T X E).
  Context (e e1 e2 : E) (h : option nat) (xs : list T) (st : stop X) (fuel : nat).
  Context (Hh : sa_hint a e tt = (e1, Ret h)) (D : delivers (sa_next a) e1 xs e2 st) (F : length xs < fuel).
  Lemma visit_any : sort_permutes srt ->
    match st with
    | Failed err => visit_seq srt same a fuel e = Some (e2, Ret (inr err))
    | Panics => visit_seq srt same a fuel e = Some (e2, Throw)
    | Ended => match visit_seq srt same a fuel e with
               | Some (_, Ret (inl r)) => incl r xs
               | Some (e3, Throw) => threw same e3 \/ (exists l, snd (fst (srt xs e2)) = false /\ srt xs e2 = ((l, false), e3))
               | _ => False
               end
    end.
  Proof using Hh D F.
    intros P. unfold visit_seq. rewrite Hh, (take_all_delivers a e1 xs e2 st D fuel [] F). destruct st; [|reflexivity|reflexivity]. cbn [app].
    pose proof (P xs e2) as Q. destruct (srt xs e2) as [[l [|]] e3]; cbn [fst snd] in Q |- *.
    - pose proof (udedup_any same l e3) as G. destruct (udedup same l e3) as [e4 [r|]].
      + intros z Hz. apply (Permutation_in z Q). now apply G.
      + now left.
    - right. now exists l.
  Qed.
  Lemma visit_lawful {kcmp : T -> T -> comparison} : OrdLaws kcmp -> sorts kcmp srt -> same_as kcmp same -> st = Ended ->
    match visit_seq srt same a fuel e with
    | Some (_, Ret (inl r)) => r = dedup (fun x y => eqb_of kcmp x y) (sort_by kcmp xs)
    | Some (_, Throw) => True
    | _ => False
    end.
  Proof using Hh D F.
    intros L SS SA ->. unfold visit_seq. rewrite Hh, (take_all_delivers a e1 xs e2 Ended D fuel [] F). cbn [app].
    pose proof (SS xs e2) as Q. destruct (srt xs e2) as [[l [|]] e3]; cbn [fst snd] in Q; [|exact I]. rewrite (Q eq_refl).
    destruct (udedup same (sort_by kcmp xs) e3) as [e4 [r|]] eqn:R; [|exact I]. eapply udedup_like; [exact SA|exact R].
  Qed.
End C128Visit.

(** whatever the user's code does *)
Theorem C128_any {T X E : Type} (srt : list T -> E -> (list T * bool) * E) (same : clos E (T * T) bool) (a : seq_access T X E)
  (e e1 e2 : E) (h : option nat) (xs : list T) (st : stop X) (fuel : nat) : sort_permutes srt ->
  sa_hint a e tt = (e1, Ret h) -> delivers (sa_next a) e1 xs e2 st -> length xs < fuel ->
  match st with
  | Failed err => visit_seq srt same a fuel e = Some (e2, Ret (inr err))
  | Panics => visit_seq srt same a fuel e = Some (e2, Throw)
  | Ended => match visit_seq srt same a fuel e with
             | Some (_, Ret (inl r)) => incl r xs
             | Some (e3, Throw) => threw same e3 \/ (exists l, srt xs e2 = ((l, false), e3))
             | _ => False
             end
  end.
Proof.
  intros P Hh D F. pose proof (visit_any srt same a e e1 e2 h xs st fuel Hh D F P) as H. destruct st; [|exact H|exact H].
  destruct (visit_seq srt same a fuel e) as [[e3 [[r|x]|]]|]; auto. destruct H as [H|(l & _ & H)]; [now left|right; now exists l].
Qed.
(** it calls nothing but the deserializer before the end of the input: with one that never ends it never returns *)
Theorem C128_endless {T X E : Type} (srt : list T -> E -> (list T * bool) * E) (same : clos E (T * T) bool) (a : seq_access T X E) (e : E) :
  (forall fuel, visit_seq srt same a fuel e = None) <->
  exists e1 h, sa_hint a e tt = (e1, Ret h) /\ forall xs e2 st, ~ delivers (sa_next a) e1 xs e2 st.
Proof.
  assert (TA : forall fuel acc e1 e2 r, take_all a fuel acc e1 = Some (e2, r) -> exists xs st, delivers (sa_next a) e1 xs e2 st).
  { induction fuel as [|fuel IH]; intros acc e1 e2 r; cbn [take_all]; [discriminate|].
    destruct (sa_next a e1 tt) as [e3 [[[v|]|err]|]] eqn:Q.
    - intros H. apply IH in H as (xs & st & H). exists (v :: xs), st. now apply (delivers_item _ e1 e3).
    - intros [= <- _]. exists [], Ended. now constructor.
    - intros [= <- _]. exists [], (Failed err). now constructor.
    - intros [= <- _]. exists [], Panics. now constructor. }
  split.
  - intros H. destruct (sa_hint a e tt) as [e1 [h|]] eqn:Hh.
    + exists e1, h. split; [reflexivity|]. intros xs e2 st D. specialize (H (S (length xs))). unfold visit_seq in H. rewrite Hh in H.
      rewrite (take_all_delivers a e1 xs e2 st D) in H by lia. destruct st; try discriminate H.
      destruct (srt _ e2) as [[l [|]] e3]; [|discriminate H]. destruct (udedup same l e3) as [e4 [r|]]; discriminate H.
    + specialize (H 0). unfold visit_seq in H. rewrite Hh in H. discriminate H.
  - intros (e1 & h & Hh & N) fuel. unfold visit_seq. rewrite Hh.
    destruct (take_all a fuel [] e1) as [[e2 r]|] eqn:Q; [|reflexivity]. apply TA in Q as (xs & st & D). now apply N in D.
Qed.

(** with a lawful order *)
Theorem C128_set {T X E : Type} {kcmp : T -> T -> comparison} (srt : list T -> E -> (list T * bool) * E) (same : clos E (T * T) bool)
  (a : seq_access T X E) (e e1 e2 : E) (h : option nat) (xs : list T) (fuel : nat) :
  OrdLaws kcmp -> sorts kcmp srt -> same_as kcmp same ->
  sa_hint a e tt = (e1, Ret h) -> delivers (sa_next a) e1 xs e2 Ended -> length xs < fuel ->
  match visit_seq srt same a fuel e with
  | Some (_, Ret (inl r)) => StronglySorted (fun x y => kcmp x y = Lt) r /\ forall z, In z r <-> first_occ kcmp z xs
  | Some (_, Throw) => True
  | _ => False
  end.
Proof.
  intros L SS SA Hh D F. pose proof (visit_lawful srt same a e e1 e2 h xs Ended fuel Hh D F L SS SA eq_refl) as H.
  destruct (visit_seq srt same a fuel e) as [[e3 [[r|x]|]]|]; auto. subst r. pose proof (std_sort_dedup L xs) as Q. split; [exact (proj1 Q)|].
  intros z. exact (is_dedup_In L KeepFirst xs _ z Q).
Qed.
Theorem C128_map {K V X E : Type} {kcmp : K -> K -> comparison} (srt : list (K * V) -> E -> (list (K * V) * bool) * E) (clone : clos E K K)
  (eq : clos E (K * K) bool) (a : seq_access (K * V) X E) (e e1 e2 : E) (h : option nat) (xs : list (K * V)) (fuel : nat) :
  OrdLaws kcmp -> sorts (fun x y => kcmp (fst x) (fst y)) srt -> same_as kcmp eq -> clones_equal kcmp clone ->
  sa_hint a e tt = (e1, Ret h) -> delivers (sa_next a) e1 xs e2 Ended -> length xs < fuel ->
  match visit_map srt clone eq a fuel e with
  | Some (_, Ret (inl r)) => ksorted (cmp := kcmp) fst r /\ forall k, kfind kcmp fst k r = kfind kcmp fst k xs
  | Some (_, Throw) => True
  | _ => False
  end.
Proof.
  intros L SS SA CE Hh D F.
  assert (SK : same_as (by_key fst kcmp) (same_key (V := V) clone eq)).
  { intros e0 x y e' q. unfold same_key. cbn [fst snd].
    destruct (clone e0 (fst x)) as [e3 [k1|]] eqn:Q1; [|discriminate]. destruct (clone e3 (fst y)) as [e4 [k2|]] eqn:Q2; [|discriminate].
    intros H. apply SA in H. subst q. unfold eqb_of, by_key.
    assert (C1 : kcmp k1 (fst x) = Eq) by (apply CE; now exists e0, e3). assert (C2 : kcmp k2 (fst y) = Eq) by (apply CE; now exists e3, e4).
    now rewrite (cmp_eq_l L _ _ _ C1), (cmp_eq_r L _ _ _ C2). }
  pose proof (visit_lawful srt _ a e e1 e2 h xs Ended fuel Hh D F (by_key_ord fst kcmp L) SS SK eq_refl) as H. unfold visit_map.
  destruct (visit_seq srt _ a fuel e) as [[e3 [[r|x]|]]|]; auto. subst r. exact (visit_map_spec L xs).
Qed.
(** what was serialized comes back, in whatever order the deserializer hands it out *)
Theorem C128_round_trip {T X E : Type} {kcmp : T -> T -> comparison} (srt : list T -> E -> (list T * bool) * E) (same : clos E (T * T) bool)
  (a : seq_access T X E) (l : list T) (e e1 e2 : E) (h : option nat) (xs : list T) (fuel : nat) :
  OrdLaws kcmp -> sorts kcmp srt -> same_as kcmp same -> StronglySorted (fun x y => kcmp x y = Lt) l ->
  sa_hint a e tt = (e1, Ret h) -> delivers (sa_next a) e1 xs e2 Ended -> Permutation xs l -> length xs < fuel ->
  match visit_seq srt same a fuel e with
  | Some (_, Ret (inl r)) => r = l
  | Some (_, Throw) => True
  | _ => False
  end.
Proof.
  intros L SS SA S Hh D P F. pose proof (C128_set srt same a e e1 e2 h xs fuel L SS SA Hh D F) as H.
  destruct (visit_seq srt same a fuel e) as [[e3 [[r|x]|]]|]; auto. destruct H as (Sr & I).
  apply (sorted_ext L); auto. intros z. rewrite I. split.
  - intros (l1 & l2 & -> & _). apply (Permutation_in z P), in_or_app. right. now left.
  - intros Hz. apply (Permutation_in z (Permutation_sym P)) in Hz. apply in_split in Hz as (l1 & l2 & ->).
    exists l1, l2. split; [reflexivity|]. intros (y & Hy & Q).
    assert (Hy' : In y l) by (apply (Permutation_in y P), in_or_app; now left).
    assert (Hz' : In z l) by (apply (Permutation_in z P), in_or_app; right; now left).
    assert (z = y) as -> by (exact (sorted_In_eq L l z y S Hz' Hy' Q)).
    assert (ND : NoDup l) by (exact (sorted_NoDup L l S)).
    apply (Permutation_NoDup (Permutation_sym P)) in ND. apply NoDup_remove_2 in ND. apply ND, in_or_app. now left.
Qed.

(** ** Witnesses: a pipe that breaks after some calls. The world is what has been written or is to be read, and the calls left *)
Definition breaking {Y Z : Type} (f : list nat -> Y -> list nat * Z) : clos (list nat * nat) Y (Z + nat) := fun e y =>
  let (buf, left_calls) := e in
  match left_calls with 0 => (e, Ret (inr 99)) | S n => let (b, z) := f buf y in ((b, n), Ret (inl z)) end.
Definition pipe_ser : serializer nat nat nat (list nat * nat) :=
  MkSer (breaking (fun b n => (b ++ [match n with Some k => k | None => 0 end], tt))) (breaking (fun b x => (b ++ [x], tt))) (breaking (fun b _ => (b, length b))).
Definition pipe_de : seq_access nat nat (list nat * nat) :=
  MkSeq (fun e _ => (e, Ret (Some 1000))) (breaking (fun b _ => match b with [] => ([], None) | x :: b' => (b', Some x) end)).
Definition nat_same {E} : clos E (nat * nat) bool := fun e p => (e, Ret (fst p =? snd p)).
Example C128_serialize_witness :
  serialize_to pipe_ser [2; 5; 9] ([], 5) = (([3; 2; 5; 9], 0), Ret (inl 4)) /\
  serialize_to pipe_ser [2; 5; 9] ([], 2) = (([3; 2], 0), Ret (inr 99)).
Proof. vm_compute. split; reflexivity. Qed.
Example C128_visit_witness :
  visit_seq (plain_sort Nat.compare) nat_same pipe_de 9 ([5; 2; 5; 9; 2], 6) = Some (([], 0), Ret (inl [2; 5; 9])) /\
  visit_seq (plain_sort Nat.compare) nat_same pipe_de 9 ([5; 2; 5; 9; 2], 3) = Some (([9; 2], 0), Ret (inr 99)).
Proof. vm_compute. split; reflexivity. Qed.
Example C128_delivers_witness :
  delivers (sa_next pipe_de) ([5; 2; 5], 4) [5; 2; 5] ([], 0) Ended /\ delivers (sa_next pipe_de) ([5; 2; 5], 2) [5; 2] ([5], 0) (Failed 99) /\
  delivers (sa_next pipe_de) ([9; 2; 5], 4) [9; 2; 5] ([], 0) Ended /\ Permutation [9; 2; 5] [2; 5; 9].
Proof.
  split; [|split; [|split]].
  - do 3 (eapply delivers_item; [reflexivity|]). apply delivers_ended. reflexivity.
  - do 2 (eapply delivers_item; [reflexivity|]). apply delivers_failed. reflexivity.
  - do 3 (eapply delivers_item; [reflexivity|]). apply delivers_ended. reflexivity.
  - apply (Permutation_cons_append [2; 5] 9).
Qed.
Example C128_laws_witness : same_as (E := nat) Nat.compare nat_same /\ sort_permutes (@plain_sort nat nat Nat.compare).
Proof.
  split.
  - intros e x y e' q [= _ <-]. unfold eqb_of. cbn [fst snd]. destruct (Nat.compare x y) eqn:Q.
    + apply Nat.compare_eq in Q. now apply Nat.eqb_eq.
    + apply Nat.compare_lt_iff in Q. apply Nat.eqb_neq. lia.
    + apply Nat.compare_gt_iff in Q. apply Nat.eqb_neq. lia.
  - intros l e. apply sort_by_perm.
Qed.
Example C128_map_witness :
  visit_map (plain_sort (fun x y => Nat.compare (fst x) (fst y))) (fun e k => (e, Ret k)) nat_same
    (MkSeq (X := nat) (fun e _ => (e, Ret None)) (fun e _ => match e with [] => ([], Ret (inl None)) | x :: e' => (e', Ret (inl (Some x))) end)) 9
    [(5, 50); (2, 20); (5, 51)] = Some ([], Ret (inl [(2, 20); (5, 50)])).
Proof. reflexivity. Qed.
(** a deserializer that never ends *)
Example C128_endless_witness : forall xs e2 st, ~ delivers (T := nat) (X := nat) (fun (e : unit) _ => (e, Ret (inl (Some 1)))) tt xs e2 st.
Proof. intros xs e2 st D. induction D as [e e' H|e e' x H|e e' H|e e1 e' x xs st H D IH]; try discriminate H. exact IH. Qed.
Print Assumptions C128_serialize.
Print Assumptions C128_any.
Print Assumptions C128_endless.
Print Assumptions C128_set.
Print Assumptions C128_map.
Print Assumptions C128_round_trip.

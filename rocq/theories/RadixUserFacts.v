(** What holds of every run of the operations of RadixUserModel.v, whatever the user code does. *)
From Verif Require Export RadixUserEngine.
From Verif Require Import RadixFacts.

(** ** Trees: the weight of the values held, and the shape *)
Section Trees.
  Context {K V : Type}.
  Definition ow (f : V -> nat) (v : option V) : nat := match v with Some v => f v | None => 0 end.
  (** the sum of [f] over the values of a tree *)
  Fixpoint tw (f : V -> nat) (t : rtree K V) : nat := let 'Node _ v c := t in ow f v + list_sum (map (tw f) c).
  Definition lw (f : V -> nat) (l : list (rtree K V)) : nat := list_sum (map (tw f) l).
  (** every node below the root has a non-empty prefix *)
  Fixpoint shaped (t : rtree K V) : bool := let 'Node _ _ c := t in forallb (fun x => has_head x && shaped x) c.
  Definition ns (x : rtree K V) : bool := has_head x && shaped x.
  Lemma shaped_eq t : shaped t = forallb ns (t_children t).
  Proof. destruct t. reflexivity. Qed.
  Lemma tw_eq f t : tw f t = ow f (t_value t) + lw f (t_children t).
  Proof. destruct t. reflexivity. Qed.
  Lemma lw_app f l m : lw f (l ++ m) = lw f l + lw f m.
  Proof. unfold lw. now rewrite map_app, list_sum_app. Qed.
  Lemma lw_cons f x l : lw f (x :: l) = tw f x + lw f l.
  Proof. reflexivity. Qed.
  Lemma lw_one f x : lw f [x] = tw f x.
  Proof. unfold lw. cbn [map list_sum fold_right]. lia. Qed.
  Lemma lw_nil f : lw f [] = 0.
  Proof. reflexivity. Qed.
  Lemma lw_firstn_skipn f n l : lw f (firstn n l) + lw f (skipn n l) = lw f l.
  Proof. now rewrite <- lw_app, firstn_skipn. Qed.
  Lemma size_child (t x : rtree K V) : In x (t_children t) -> t_size x < t_size t.
  Proof.
    destruct t as [p v c]. cbn [t_children t_size]. intros H. apply in_split in H. destruct H as (l & m & ->).
    rewrite map_app, list_sum_app. cbn [map list_sum fold_right]. unfold list_sum. lia.
  Qed.
  Lemma empty_w f (t : rtree K V) : t_is_empty t = true -> tw f t = 0.
  Proof. destruct t as [p [v|] [|x c]]; try discriminate. reflexivity. Qed.
  Lemma forallb_firstn {T} (p : T -> bool) n (l : list T) : forallb p l = true -> forallb p (firstn n l) = true.
  Proof. intros H. rewrite <- (firstn_skipn n l), forallb_app in H. now apply andb_prop in H. Qed.
  Lemma forallb_skipn {T} (p : T -> bool) n (l : list T) : forallb p l = true -> forallb p (skipn n l) = true.
  Proof. intros H. rewrite <- (firstn_skipn n l), forallb_app in H. now apply andb_prop in H. Qed.
  Lemma forallb_filter {T} (p q : T -> bool) (l : list T) : forallb p l = true -> forallb p (filter q l) = true.
  Proof.
    intros H. rewrite forallb_forall in *. intros x Hx. apply filter_In in Hx. now apply H.
  Qed.

  Lemma filter_w f (l : list (rtree K V)) : lw f (filter (fun x => negb (t_is_empty x)) l) = lw f l.
  Proof.
    induction l as [|x l IH]; [reflexivity|]. cbn [filter]. destruct (t_is_empty x) eqn:Q; cbn [negb]; rewrite !(lw_cons f), ?IH.
    - now rewrite (empty_w f _ Q).
    - reflexivity.
  Qed.
  Lemma prepend_w f (t : rtree K V) q : tw f (rt_prepend t q) = tw f t.
  Proof. destruct t as [p v c]. unfold rt_prepend. destruct q; [reflexivity|]. destruct (t_is_empty _); reflexivity. Qed.
  Lemma reset_w f (t : rtree K V) : tw f (let 'Node p1 v1 c1 := t in if t_is_empty t then Node [] v1 c1 else t) = tw f t.
  Proof. destruct t as [p v c]. destruct (t_is_empty _); reflexivity. Qed.
  Lemma unsplit_w f (t : rtree K V) : tw f (t_unsplit t) = tw f t.
  Proof.
    destruct t as [p v c]. unfold t_unsplit. rewrite (reset_w f). change (tw f (Node p v c)) with (ow f v + lw f c).
    rewrite <- (filter_w f c). destruct v as [v|]; [reflexivity|].
    destruct (filter _ c) as [|x [|y l]]; try reflexivity. rewrite prepend_w. cbn [ow]. unfold lw. cbn [map list_sum fold_right]. lia.
  Qed.
  Lemma reset_shaped (t : rtree K V) : shaped t = true ->
    shaped (let 'Node p1 v1 c1 := t in if t_is_empty t then Node [] v1 c1 else t) = true.
  Proof. destruct t as [p v c]. now destruct (t_is_empty _). Qed.
  Lemma prepend_shaped (t : rtree K V) q : shaped (rt_prepend t q) = shaped t.
  Proof. destruct t as [p v c]. unfold rt_prepend. destruct q; [reflexivity|]. destruct (t_is_empty _); reflexivity. Qed.
  Lemma unsplit_shaped (t : rtree K V) : shaped t = true -> shaped (t_unsplit t) = true.
  Proof.
    destruct t as [p v c]. rewrite shaped_eq. cbn [t_children]. intros H. unfold t_unsplit.
    apply (forallb_filter _ (fun x => negb (t_is_empty x))) in H. apply reset_shaped.
    destruct v as [v|]; [rewrite shaped_eq; exact H|].
    destruct (filter _ c) as [|x [|y l]]; try (rewrite shaped_eq; exact H). rewrite prepend_shaped.
    cbn [forallb] in H. unfold ns in H. now apply andb_prop, proj1, andb_prop, proj2 in H.
  Qed.
  Lemma unsplit_head (t : rtree K V) : has_head t = true -> t_is_empty (t_unsplit t) = true \/ has_head (t_unsplit t) = true.
  Proof.
    destruct t as [p v c]. unfold has_head at 1. cbn [t_prefix]. intros H. unfold t_unsplit.
    set (t1 := match v with Some _ => _ | None => _ end).
    assert (H1 : t_is_empty t1 = true \/ has_head t1 = true).
    { unfold t1. destruct v as [v|]; [right; exact H|].
      destruct (filter _ c) as [|x [|y l]]; [right; exact H| |right; exact H].
      destruct x as [q w d]. unfold rt_prepend. destruct p as [|k p]; [discriminate|].
      destruct (t_is_empty (Node q w d)) eqn:Q; [left; exact Q|right; reflexivity]. }
    destruct t1 as [p1 v1 c1]. destruct (t_is_empty (Node p1 v1 c1)) eqn:Q.
    - left. exact Q.
    - destruct H1 as [H1|H1]; [congruence|now right].
  Qed.
  Lemma split_shape (t : rtree K V) n t' : t_split t n = Ok t' -> shaped t = true -> shaped t' = true.
  Proof.
    destruct t as [p v c]. unfold t_split. destruct (Nat.ltb_spec n (length p)); [|discriminate]. intros [= <-] H1.
    rewrite shaped_eq. cbn [t_children forallb]. unfold ns, has_head. cbn [t_prefix].
    destruct (skipn n p) eqn:Q.
    - apply (f_equal (@length K)) in Q. rewrite skipn_length in Q. cbn [length] in Q. lia.
    - cbn. cbn in H1. now rewrite H1.
  Qed.
  Lemma split_get (t : rtree K V) n : n < length (t_prefix t) ->
    t_split t n = Ok (Node (firstn n (t_prefix t)) None [Node (skipn n (t_prefix t)) (t_value t) (t_children t)]).
  Proof. destruct t as [p v c]. cbn [t_prefix]. intros H. unfold t_split. now apply Nat.ltb_lt in H as ->. Qed.
  Lemma skipn_head (p : list K) n v (c : list (rtree K V)) : n < length p -> has_head (Node (skipn n p) v c) = true.
  Proof.
    intros H. unfold has_head. cbn [t_prefix]. destruct (skipn n p) eqn:Q; [|reflexivity].
    apply (f_equal (@length K)) in Q. rewrite skipn_length in Q. cbn [length] in Q. lia.
  Qed.
  Lemma firstn_head (p : list K) n v (c : list (rtree K V)) : 0 < n -> n <= length p -> has_head (Node (firstn n p) v c) = true.
  Proof. intros H1 H2. destruct n; [lia|]. destruct p; [cbn in H2; lia|]. reflexivity. Qed.
End Trees.

Section Run.
  Context {E K : Type} (u : ucode E K).
  (** [Bl]: some user code may panic; [led]: the weight of what the user code has made so far *)
  Context (Bl : Prop) (led : E -> nat).
  Definition usercall {X Y} (f : clos E X Y) (w : Y -> nat) : Prop :=
    forall e x e' r, f e x = (e', r) ->
    match r with Ret y => led e + w y <= led e' | Throw => led e <= led e' /\ Bl end.
  Definition nothing {Y} (_ : Y) : nat := 0.
  Context (OE : usercall (u_eq u) nothing) (OC : usercall (u_cmp u) nothing) (OL : usercall (u_lt u) nothing).
  (** [==] never says no to two components that [cmp] called equal *)
  Definition alike (x y : K) : Prop := exists e e', u_cmp u e (x, y) = (e', Ret Eq).
  Definition consistent : Prop := forall x y e e', alike x y -> u_eq u e (x, y) <> (e', Ret false).
  (** the two roots were found equal in their first component *)
  Definition meet {V X} (a : rtree K V) (b : rtree K X) : Prop :=
    exists x p y q, t_prefix a = x :: p /\ t_prefix b = y :: q /\ alike x y.

  (** what a borrowing step gives: it never runs out of fuel *)
  Definition gives {Y} (e : E) (r : given_back E Y) (w : Y -> nat) (P : Y -> Prop) (B : Prop) : Prop :=
    match r with
    | Some (e', Ret y) => led e + w y <= led e' /\ P y
    | Some (e', Throw) => led e <= led e' /\ (B -> Bl)
    | None => False
    end.
  Lemma gives_then {Y Z} e (r : given_back E Y) w P (B : Prop) (k : Y -> E -> given_back E Z) w' P' (B' : Prop) :
    gives e r w P B -> (B' -> B) ->
    (forall y e', led e + w y <= led e' -> P y -> gives e (k y e') w' P' B') ->
    gives e (then_ r k) w' P' B'.
  Proof.
    unfold gives, then_. destruct r as [[e' [y|]]|]; [|intros (H1 & H2) HB _; split; [assumption|tauto]|intros []].
    intros (H1 & H2) _ K1. exact (K1 y e' H1 H2).
  Qed.
  Lemma gives_mono {Y} e e0 (r : given_back E Y) w P B : gives e0 r w P B -> led e <= led e0 -> gives e r w P B.
  Proof. unfold gives. destruct r as [[e' [y|]]|]; intros H L; try tauto; split; try apply H; destruct H; lia. Qed.
  Lemma gives_impl {Y} e (r : given_back E Y) (w w' : Y -> nat) (P P' : Y -> Prop) (B B' : Prop) :
    gives e r w P B -> (forall y, P y -> w' y <= w y /\ P' y) -> (B' -> B) -> gives e r w' P' B'.
  Proof.
    unfold gives. destruct r as [[e' [y|]]|]; intros H I J; try tauto.
    destruct H as (H1 & H2). destruct (I y H2). split; [lia|assumption].
  Qed.
  Lemma gives_call {X Y} (f : clos E X Y) w e x : usercall f w -> gives e (Some (f e x)) w (fun _ => True) True.
  Proof. intros C. unfold gives. specialize (C e x). destruct (f e x) as [e' [y|]]; specialize (C _ _ eq_refl); cbn iota beta in C; tauto. Qed.
  Lemma gives_ret {Y} e (y : Y) w (P : Y -> Prop) B : w y = 0 -> P y -> gives e (Some (e, Ret y)) w P B.
  Proof. intros H1 H2. unfold gives. split; [lia|assumption]. Qed.

  Lemma ucommon_gives : forall a b e,
    gives e (ucommon u a b e) nothing
      (fun n => n <= length a /\ n <= length b /\
                forall x p y q, a = x :: p -> b = y :: q -> alike x y -> consistent -> 0 < n) True.
  Proof using OE.
    induction a as [|x a IH]; intros b e; cbn [ucommon].
    { apply gives_ret; [reflexivity|]. split; [cbn; lia|]. split; [lia|]. discriminate. }
    destruct b as [|y b].
    { apply gives_ret; [reflexivity|]. split; [cbn; lia|]. split; [cbn; lia|]. discriminate. }
    pose proof (OE e (x, y)) as C. destruct (u_eq u e (x, y)) as [e' [q|]] eqn:Q; specialize (C _ _ eq_refl);
      cbn [then_]; cbn iota beta in C.
    2:{ unfold gives. tauto. }
    unfold nothing in C. destruct q.
    - eapply gives_then; [exact (gives_mono e e' _ _ _ _ (IH b e') ltac:(lia))|tauto|].
      intros n e2 L (H1 & H2 & _). unfold gives, nothing in *. split; [lia|]. cbn [length]. split; [lia|]. split; [lia|].
      intros; lia.
    - unfold gives, nothing. split; [lia|]. split; [lia|]. split; [lia|].
      intros x0 p y0 q0 [= <- <-] [= <- <-] A C0. destruct (C0 x y e e' A Q).
  Qed.

  (** ** Copies *)
  Section Mat.
    Context {V : Type} (w : V -> nat) (cl : clos E V V) (CL : usercall cl w).
    Lemma uclone_gives v e : gives e (uclone cl v e) (ow w) (fun _ => True) True.
    Proof using CL.
      destruct v as [v|]; cbn [uclone]; [|now apply gives_ret].
      eapply gives_then; [exact (gives_call cl w e v CL)|tauto|].
      intros y e' L _. unfold gives. cbn [ow]. tauto.
    Qed.
    Lemma umat_gives : forall (t : rtree K V) n e,
      gives e (umat cl t n e) (tw w)
        (fun t' => shaped t' = true /\ t_size t' = t_size t /\ t_prefix t' = skipn n (t_prefix t) /\ n < length (t_prefix t))
        (n < length (t_prefix t) /\ shaped t = true).
    Proof using CL.
      induction t as [p v c IH] using rtree_ind'. intros n e. cbn [umat].
      destruct (Nat.ltb_spec n (length p)) as [Ln|Ln].
      2:{ unfold gives. split; [lia|]. cbn [t_prefix]. lia. }
      pose proof (uclone_gives v e) as H1. destruct (uclone cl v e) as [[e1 [v'|]]|]; cbn [then_ gives] in *; [|tauto..].
      destruct H1 as (H1 & _).
      match goal with |- gives _ (then_ (?g c e1) _) _ _ _ => set (go := g) end.
      assert (G : forall l, Forall (fun x => forall n e, gives e (umat cl x n e) (tw w)
          (fun t' => shaped t' = true /\ t_size t' = t_size x /\ t_prefix t' = skipn n (t_prefix x) /\ n < length (t_prefix x))
          (n < length (t_prefix x) /\ shaped x = true)) l -> forall e,
        gives e (go l e) (lw w) (fun l' => forallb ns l' = true /\ map t_size l' = map t_size l) (forallb ns l = true)).
      { induction l as [|x l IHl]; intros F e0; cbn [go]; [now apply gives_ret|].
        pose proof (Forall_inv F 0 e0) as X1. destruct (umat cl x 0 e0) as [[e2 [x'|]]|]; cbn [then_ gives] in *.
        2:{ destruct X1 as (X1 & X2). split; [assumption|]. unfold ns, has_head. cbn [forallb].
            destruct (t_prefix x); cbn; [discriminate|]. intros Q. apply X2. cbn [length]. split; [lia|].
            now apply andb_prop in Q. }
        2:{ exact X1. }
        destruct X1 as (X1 & X2 & X3 & X4 & X5). rewrite skipn_O in X4.
        pose proof (IHl (Forall_inv_tail F) e2) as Y1. fold (go l e2). destruct (go l e2) as [[e3 [l'|]]|]; cbn [then_ gives] in *.
        - destruct Y1 as (Y1 & Y2 & Y3). rewrite lw_cons. split; [lia|]. cbn [forallb map]. unfold ns at 1, has_head.
          rewrite X4, X2, Y2, X3, Y3. destruct (t_prefix x); [cbn in X5; lia|]. now split.
        - destruct Y1 as (Y1 & Y2). split; [lia|]. cbn [forallb]. intros Q. apply Y2. now apply andb_prop in Q.
        - exact Y1. }
      specialize (G c IH e1). destruct (go c e1) as [[e2 [c'|]]|]; cbn [then_ gives] in *.
      - destruct G as (G1 & G2 & G3). cbn [tw]. fold (lw w c'). split; [lia|]. cbn [t_prefix t_size].
        rewrite shaped_eq. cbn [t_children]. rewrite G3. now repeat split.
      - destruct G as (G1 & G2). split; [lia|]. intros (_ & Q). apply G2. rewrite shaped_eq in Q. exact Q.
      - exact G.
    Qed.
    Lemma umat_ns (t : rtree K V) n e : gives e (umat cl t n e) (tw w)
        (fun t' => ns t' = true /\ t_size t' = t_size t) (n < length (t_prefix t) /\ shaped t = true).
    Proof using CL.
      eapply gives_impl; [apply umat_gives| |tauto]. cbn beta. intros t' (H1 & H2 & H3 & H4). split; [lia|].
      split; [|assumption]. unfold ns, has_head. rewrite H1, H3. destruct (skipn n (t_prefix t)) eqn:Q; [|reflexivity].
      apply (f_equal (@length K)) in Q. rewrite skipn_length in Q. cbn [length] in Q. lia.
    Qed.
    Lemma umat_all_gives : forall (l : list (rtree K V)) e, gives e (umat_all cl l e) (lw w) (fun l' => forallb ns l' = true) (forallb ns l = true).
    Proof using CL.
      induction l as [|x l IH]; intros e; cbn [umat_all]; [now apply gives_ret|].
      pose proof (umat_ns x 0 e) as H. destruct (umat cl x 0 e) as [[e1 [x'|]]|]; cbn [then_ gives] in *.
      - destruct H as (H1 & H2 & _). pose proof (IH e1) as G.
        destruct (umat_all cl l e1) as [[e2 [l'|]]|]; cbn [then_ gives] in *.
        + destruct G as (G1 & G2). rewrite lw_cons. cbn [forallb]. rewrite H2, G2. split; [lia|reflexivity].
        + destruct G as (G1 & G2). split; [lia|]. cbn [forallb]. intros Q. apply G2. now apply andb_prop in Q.
        + exact G.
      - destruct H as (H1 & H2). split; [assumption|]. cbn [forallb]. unfold ns, has_head. intros Q. apply H2.
        destruct (t_prefix x); [discriminate|]. cbn [length]. split; [lia|]. now apply andb_prop in Q.
      - exact H.
    Qed.
    Lemma uclone_tree_gives : forall (t : rtree K V) e, gives e (uclone_tree cl t e) (tw w)
      (fun t' => shaped t' = shaped t /\ t_prefix t' = t_prefix t) True.
    Proof using CL.
      induction t as [p v c IH] using rtree_ind'. intros e. cbn [uclone_tree].
      pose proof (uclone_gives v e) as H1. destruct (uclone cl v e) as [[e1 [v'|]]|]; cbn [then_ gives] in *; [|tauto..].
      destruct H1 as (H1 & _).
      match goal with |- gives _ (then_ (?g c e1) _) _ _ _ => set (go := g) end.
      assert (G : forall l, Forall (fun x => forall e, gives e (uclone_tree cl x e) (tw w)
          (fun t' => shaped t' = shaped x /\ t_prefix t' = t_prefix x) True) l -> forall e,
        gives e (go l e) (lw w) (fun l' => forallb ns l' = forallb ns l) True).
      { induction l as [|x l IHl]; intros F e0; cbn [go]; [now apply gives_ret|].
        pose proof (Forall_inv F e0) as X1. destruct (uclone_tree cl x e0) as [[e2 [x'|]]|]; cbn [then_ gives] in *; [|tauto..].
        destruct X1 as (X1 & X2 & X3).
        pose proof (IHl (Forall_inv_tail F) e2) as Y1. fold (go l e2). destruct (go l e2) as [[e3 [l'|]]|]; cbn [then_ gives] in *.
        - destruct Y1 as (Y1 & Y2). rewrite lw_cons. split; [lia|]. cbn [forallb]. unfold ns at 1 3, has_head. now rewrite X2, X3, Y2.
        - split; [lia|tauto].
        - exact Y1. }
      specialize (G c IH e1). destruct (go c e1) as [[e2 [c'|]]|]; cbn [then_ gives] in *.
      - destruct G as (G1 & G2). cbn [tw]. fold (lw w c'). split; [lia|]. cbn [t_prefix]. split; [|reflexivity].
        rewrite !shaped_eq. exact G2.
      - split; [lia|tauto].
      - exact G.
    Qed.
  End Mat.

  Lemma usort2_gives {V} (w : V -> nat) (a b : rtree K V) e :
    gives e (usort2 u a b e) nothing (fun l => lw w l = tw w a + tw w b /\ forallb ns l = ns a && ns b)
          (has_head a = true /\ has_head b = true).
  Proof using OL.
    unfold usort2. unfold has_head. destruct (t_prefix b) as [|y q].
    { unfold gives. split; [lia|]. now intros (_ & H). }
    destruct (t_prefix a) as [|x p].
    { unfold gives. split; [lia|]. now intros (H & _). }
    pose proof (OL e (y, x)) as C. destruct (u_lt u e (y, x)) as [e' [r|]]; specialize (C _ _ eq_refl); cbn iota beta in C; cbn [then_ gives].
    - unfold nothing in *. split; [lia|]. destruct r; rewrite !lw_cons; unfold lw; cbn [map list_sum fold_right forallb];
        (split; [lia|]); rewrite andb_true_r; [apply andb_comm|reflexivity].
    - tauto.
  Qed.
End Run.

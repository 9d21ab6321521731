(** One node of an in-place radix tree operation whose comparisons answer like an order: from what happens at the node's own
    key and in the slots of its children to what happens at every key. *)
From Verif Require Export RadixLawWith.
From Verif Require Import RadixEffMerge RadixComb.

Section NodeLaw.
  Context {K : Type} {kcmp : K -> K -> comparison} (L : OrdLaws kcmp) (EQ : OrdEq kcmp).
  Context {E : Type} (u : ucode E K) (AN : answers_like kcmp u) (strat : nat -> nat -> bool).
  Context {V X : Type} (cx : clos E X X) (q qb : bool).
  Notation wf := (wf kcmp).
  Notation wfc := (wfc (kcmp := kcmp)).
  Notation child := (child (kcmp := kcmp)).
  Notation lk := (lk kcmp).
  Notation lkc := (lkc (kcmp := kcmp)).
  Notation recopied := (recopied (kcmp := kcmp) cx).
  Notation A := (rtree K V). Notation B := (rtree K X).

  Lemma is_prefix_nil (k : list K) : is_prefix [] k.
  Proof. now exists k. Qed.
  Lemma is_prefix_of_nil (k : list K) : is_prefix k [] -> k = [].
  Proof. intros [r H]. symmetry in H. now apply app_eq_nil in H. Qed.
  Lemma is_prefix_cons c k' (k : list K) : is_prefix (c :: k') (c :: k) <-> is_prefix k' k.
  Proof. split; intros [r H]; exists r; [now injection H|cbn [app]; now f_equal]. Qed.
  Lemma is_prefix_hd c k' (k : list K) : is_prefix k' (c :: k) -> k' = [] \/ exists k1, k' = c :: k1.
  Proof. intros [r H]. destruct k' as [|c' k1]; [now left|]. injection H as -> _. right. now exists k1. Qed.
  Lemma lk_under {Y} p (w : option Y) (cs : list (rtree K Y)) r : lk (Node p w cs) (p ++ r) = lk (Node [] w cs) r.
  Proof using EQ. rewrite (lk_strip p), (strip_app EQ). reflexivity. Qed.
  Lemma lk_longer {Y} p x r (v : option Y) (cs : list (rtree K Y)) k :
    lk (Node (p ++ x :: r) v cs) k = lk (Node p None [Node (x :: r) v cs]) k.
  Proof using EQ.
    rewrite (lk_strip (p ++ x :: r)), (strip_app_l (kcmp := kcmp)), (lk_strip p).
    destruct (strip kcmp p k) as [k'|]; [|reflexivity]. rewrite (lk_node [] None), (strip_nil (kcmp := kcmp)). destruct k' as [|c k']; [reflexivity|].
    rewrite lkc_cons. rewrite (lk_strip (x :: r)). unfold RadixFacts.lkc. cbn [fold_right].
    destruct (strip kcmp (x :: r) (c :: k')) as [k2|]; [|reflexivity]. now destruct (lk (Node [] v cs) k2).
  Qed.

  (** what the operation does at a key, when it returns ([Rk]: value of self, lookups of that, key, value of the result)
      and when it panics ([Lk]: ..., an entry left behind); [Own]: the value of that at a prefix of the key lets it go on *)
  Context (ta tb : bool) (conv : B -> E -> given_back E A).
  Context (Rk : option V -> (list K -> option X) -> list K -> option V -> Prop)
          (Lk : option V -> (list K -> option X) -> list K -> V -> Prop) (Own : option X -> Prop) (Ord : Prop).
  Record entry_laws : Prop := {
    rk_ext : forall v g g' k z, (forall k', is_prefix k' k -> g k' = g' k') -> Rk v g k z -> Rk v g' k z;
    rk_copy : forall v g g' k z, (forall k', once cx (g k') (g' k')) -> Rk v g' k z -> Rk v g k z;
    rk_shift : forall v g g' p r z, (forall r', g' (p ++ r') = g r') -> (forall k', (forall r', k' <> p ++ r') -> g' k' = None) ->
               Rk v g r z -> Rk v g' (p ++ r) z;
    rk_none : forall v g k, (forall k', is_prefix k' k -> g k' = None) -> Rk v g k (if ta then v else None);
    own_none : Own None;
    rk_b : tb = false -> forall g k, Rk None g k None;
    rk_cons : forall v g c k z, Own (g []) -> Rk v (fun k' => match k' with [] => None | _ => g k' end) (c :: k) z -> Rk v g (c :: k) z;
    el_ext : forall v g g' k z, (forall k', is_prefix k' k -> g k' = g' k') -> Lk v g k z -> Lk v g' k z;
    el_copy : forall v g g' k z, (forall k', once cx (g k') (g' k')) -> Lk v g' k z -> Lk v g k z;
    el_shift : forall v g g' p r z, (forall r', g' (p ++ r') = g r') -> Lk v g r z -> Lk v g' (p ++ r) z;
    el_cons : forall v g c k z, Lk v (fun k' => match k' with [] => None | _ => g k' end) (c :: k) z -> Lk v g (c :: k) z;
    el_R : forall v g k z, Rk v g k (Some z) -> Lk v g k z;
    el_self : forall v g k, Lk (Some v) g k v
  }.
  Context (EL : entry_laws).

  Definition tgood (x : A) (y : B) (t : A) : Prop :=
    (forall k, Rk (lk x k) (lk y) k (lk t k)) /\ wf q t /\
    (forall h, hd_of x = Some h -> hd_of y = Some h -> t_is_empty t = false -> hd_of t = Some h).
  Definition trest (x : A) (y : B) (t : A) : Prop :=
    Ord -> wf false t /\ forall k z, lk t k = Some z -> Lk (lk x k) (lk y) k z.
  Definition tdone (x : A) (y : B) (r : done (A * E)) : Prop :=
    match r with Done (t, _) => tgood x y t | Unwound (t, _) => trest x y t | DoneNoFuel => True end.

  (** *** the same trees, written differently *)
  Lemma tdone_self x x' y r : (forall k, lk x' k = lk x k) -> hd_of x' = hd_of x -> tdone x' y r -> tdone x y r.
  Proof using.
    intros H Hh. destruct r as [[t e]|[t e]|]; cbn [tdone]; [| |auto].
    - intros (G1 & G2 & G3). split; [|split; [auto|]]; [intros k; rewrite <- H; apply G1|]. now rewrite <- Hh.
    - intros G O. destruct (G O) as [G1 G2]. split; [auto|]. intros k z Q. rewrite <- H. auto.
  Qed.
  (** a node with prefix [p] instead of the longer one *)
  Lemma tdone_hd x x' y y' r p : tdone x' y' r ->
    (forall k, lk x' k = lk x k) -> (forall k', once cx (lk y k') (lk y' k')) ->
    hd_of x' = hd_error p -> hd_of y' = hd_error p ->
    (forall h, hd_of x = Some h -> hd_of y = Some h -> hd_error p = Some h) -> tdone x y r.
  Proof using EL.
    intros T Hx Hy P1 P2 P3. destruct r as [[t e]|[t e]|]; cbn [tdone] in *; [| |auto].
    - destruct T as (G1 & G2 & G3). split; [|split; [auto|]].
      + intros k. rewrite <- Hx. apply (rk_copy EL) with (g' := lk y'); auto.
      + intros h Q1 Q2. apply G3; [rewrite P1|rewrite P2]; auto.
    - intros O. destruct (T O) as [G1 G2]. split; [auto|]. intros k z Q. rewrite <- Hx.
      apply (el_copy EL) with (g' := lk y'); auto.
  Qed.

  Lemma glue_R p v0 v' (ca l : list A) w (cb : list B) :
    Own w -> Rk v0 (fun _ => w) [] v' ->
    (forall c k, Rk (lkc ca (c :: k)) (fun k' => match k' with [] => None | _ => lkc cb k' end) (c :: k) (lkc l (c :: k))) ->
    forall k, Rk (lk (Node p v0 ca) k) (lk (Node p w cb)) k (lk (Node p v' l) k).
  Proof using EL EQ.
    intros HO HV HC k. destruct (strip kcmp p k) as [r|] eqn:Q.
    - apply (strip_iff EQ) in Q as ->. rewrite !lk_under. apply (rk_shift EL) with (g := lk (Node [] w cb)).
      + intros r'. apply lk_under.
      + intros k' H. rewrite (lk_strip p). destruct (strip kcmp p k') as [r'|] eqn:Q'; [|reflexivity]. apply (strip_iff EQ) in Q'. now apply H in Q'.
      + rewrite !lk_node. cbn [strip]. destruct r as [|c r].
        * apply (rk_ext EL) with (g := fun _ => w); [|exact HV]. intros k' Hp. apply is_prefix_of_nil in Hp as ->. rewrite lk_node. reflexivity.
        * apply (rk_cons EL).
          -- rewrite lk_node. exact HO.
          -- apply (rk_ext EL) with (g := fun k' => match k' with [] => None | _ => lkc cb k' end); [|apply HC].
             intros k' _. destruct k' as [|c' k']; [reflexivity|]. now rewrite lk_node.
    - rewrite !(lk_strip p _ _ k), Q. pose proof (rk_none EL None (lk (Node p w cb)) k) as N.
      assert (Z : (if ta then @None V else None) = None) by (now destruct ta). rewrite Z in N. apply N. intros k' [r Hr].
      rewrite (lk_strip p). destruct (strip kcmp p k') as [r'|] eqn:Q'; [|reflexivity]. apply (strip_iff EQ) in Q' as ->.
      exfalso. rewrite Hr, <- app_assoc, (strip_app EQ) in Q. discriminate.
  Qed.
  Lemma glue_L p v0 v' (ca l : list A) w (cb : list B) :
    (forall z, v' = Some z -> Lk v0 (fun _ => w) [] z) ->
    (forall c k z, lkc l (c :: k) = Some z -> Lk (lkc ca (c :: k)) (fun k' => match k' with [] => None | _ => lkc cb k' end) (c :: k) z) ->
    forall k z, lk (Node p v' l) k = Some z -> Lk (lk (Node p v0 ca) k) (lk (Node p w cb)) k z.
  Proof using EL EQ.
    intros HV HC k z. rewrite (lk_strip p v'). destruct (strip kcmp p k) as [r|] eqn:Q; [|discriminate].
    apply (strip_iff EQ) in Q as ->. rewrite !lk_under. intros H. apply (el_shift EL) with (g := lk (Node [] w cb)).
    { intros r'. apply lk_under. }
    rewrite lk_node in H. cbn [strip] in H. rewrite lk_node. cbn [strip]. destruct r as [|c r].
    - apply (el_ext EL) with (g := fun _ => w); [|now apply HV]. intros k' Hp. apply is_prefix_of_nil in Hp as ->. rewrite lk_node. reflexivity.
    - apply (el_cons EL). apply (el_ext EL) with (g := fun k' => match k' with [] => None | _ => lkc cb k' end); [|now apply HC].
      intros k' _. destruct k' as [|c' k']; [reflexivity|]. now rewrite lk_node.
  Qed.

  (** *** the slots of the children *)
  Section Slots.
    Context (ca : list A) (cb : list B) (Wa : wfc q ca) (Wb : wfc qb cb).
    Notation cvt := (fun (y : B) (t : A) => forall k, Rk None (lk y) k (lk t k)).
    Notation Q := (fun (x : A) (y : B) (t : A) => forall k, Rk (lk x k) (lk y) k (lk t k)).
    Notation all_slots := (all_slots (kcmp := kcmp) ta tb (fun x t : A => t = x) cvt Q q ca cb).
    Notation some_slots := (some_slots (kcmp := kcmp) ta tb (fun x t : A => t = x) cvt Q q ca cb).
    Notation slot := (slot ta tb (fun x t : A => t = x) cvt Q).
    Lemma slot_R c k r : slot (child c ca) (child c cb) r ->
      Rk (lkc ca (c :: k)) (fun k' => match k' with [] => None | _ => lkc cb k' end) (c :: k) (lko (kcmp := kcmp) r (c :: k)).
    Proof using EL EQ Wa Wb.
      intros H. rewrite (lkc_child EQ q ca c k Wa).
      apply (rk_ext EL) with (g := match child c cb with Some y => lk y | None => fun _ => None end).
      { intros k' Hp. apply is_prefix_hd in Hp as [->|[k1 ->]].
        - destruct (child c cb) as [y|] eqn:C; [|reflexivity]. apply (child_Some_In EQ) in C as [C _]. apply lk_nil. now apply (wfc_In _ _ _ Wb C).
        - rewrite (lkc_child EQ qb cb c k1 Wb). now destruct (child c cb). }
      destruct (child c ca) as [x|], (child c cb) as [y|]; cbn [RadixLawMerge.slot lko] in *.
      - destruct H as (t & H & ->). specialize (H (c :: k)). destruct (t_is_empty t) eqn:Qe; cbn [lko]; [|exact H].
        now rewrite (lk_empty t (c :: k) Qe) in H.
      - pose proof (rk_none EL (lk x (c :: k)) (fun _ => None) (c :: k) (fun _ _ => eq_refl)) as N.
        destruct ta; [destruct H as (t & -> & ->)|subst r]; exact N.
      - destruct (Bool.bool_dec tb true) as [Tb|Tb].
        + rewrite Tb in H. destruct H as (t & H & ->). apply H.
        + apply Bool.not_true_is_false in Tb. rewrite Tb in H. subst r. now apply (rk_b EL).
      - subst r. pose proof (rk_none EL None (fun _ => None) (c :: k) (fun _ _ => eq_refl)) as N. now destruct ta.
    Qed.
    Lemma all_slots_R l : all_slots l -> forall c k,
      Rk (lkc ca (c :: k)) (fun k' => match k' with [] => None | _ => lkc cb k' end) (c :: k) (lkc l (c :: k)).
    Proof using EL EQ Wa Wb. intros [W H] c k. rewrite (lkc_child EQ q l c k W). now apply slot_R. Qed.
    Lemma some_slots_L l : some_slots l -> forall c k z, lkc l (c :: k) = Some z ->
      Lk (lkc ca (c :: k)) (fun k' => match k' with [] => None | _ => lkc cb k' end) (c :: k) z.
    Proof using EL EQ Wa Wb.
      intros [W H] c k z Hz. rewrite (lkc_child EQ q l c k W) in Hz. destruct (child c l) as [t|] eqn:C; [|discriminate].
      apply (el_R EL). pose proof (slot_R c k (Some t) (H c t C)) as R. cbn [lko] in R, Hz. now rewrite Hz in R.
    Qed.
  End Slots.

  (** *** one node *)
  Lemma rest_same p v0 v' (ca : list A) w (cb : list B) : wf q (Node p v0 ca) -> (forall z, v' = Some z -> Lk v0 (fun _ => w) [] z) ->
    trest (Node p v0 ca) (Node p w cb) (Node p v' ca).
  Proof using EL EQ.
    intros W HV _. split.
    - apply wf_node in W as [W _]. apply wf_node. split; [|discriminate]. now apply (wfc_weaken q).
    - apply glue_L; auto. intros c k z ->. apply (el_self EL).
  Qed.
  Lemma rest_self (x : A) (y : B) : wf q x -> trest x y x.
  Proof using EL. intros W _. split; [now apply (wf_any q)|]. intros k z ->. apply (el_self EL). Qed.

  (** *** copying [that], or what is left of it, first *)
  Lemma with_copy x (y : B) n e (self : A) k :
    trest x y self ->
    (forall e' y', n < length (t_prefix y) -> recopied (Node (skipn n (t_prefix y)) (t_value y) (t_children y)) y' -> tdone x y (k y' e')) ->
    tdone x y (ulift self (umat cx y n e) k).
  Proof using.
    intros HS HK. destruct (umat_law (kcmp := kcmp) cx y n e) as (e' & r & -> & H). cbn [ulift]. destruct r as [y'|]; [|exact HS].
    destruct H as [H1 H2]. now apply HK.
  Qed.
  Lemma once_through p (t t' : B) k : recopied t t' -> t_prefix t <> [] -> once cx (lk (Node p None [t]) k) (lk (Node p None [t']) k).
  Proof using.
    intros R _. rewrite !lk_node. destruct (strip kcmp p k) as [[|c r]|]; [exact I| |exact I]. apply recopied_lkc. constructor; [exact R|constructor].
  Qed.

  Lemma long_wfc {Y} q0 p x r (v : option Y) (cs : list (rtree K Y)) : wf q0 (Node (p ++ x :: r) v cs) -> wfc q0 [Node (x :: r) v cs].
  Proof using.
    intros W. assert (W' : wf q0 (Node (x :: r) v cs)) by (eapply wf_shorten; [exact W|destruct p; discriminate]).
    apply wfc_single; auto; [discriminate|]. intros ->. now apply wf_true_ne in W'.
  Qed.
  (** [self] was split *)
  Lemma tdone_long p x r v (ca : list A) y r' : tdone (Node p None [Node (x :: r) v ca]) y r' ->
    hd_of y = hd_error p -> tdone (Node (p ++ x :: r) v ca) y r'.
  Proof using EQ.
    intros T Hy. destruct r' as [[t e]|[t e]|]; cbn [tdone] in *; [| |auto].
    - destruct T as (G1 & G2 & G3). split; [|split; [auto|]].
      + intros k. rewrite lk_longer. apply G1.
      + intros h _ Q2. rewrite Hy in Q2. apply G3; auto. now rewrite Hy.
    - intros O. destruct (T O) as [G1 G2]. split; [auto|]. intros k z Q. rewrite lk_longer. auto.
  Qed.

  Section Merge.
    Context (rec : A -> B -> E -> done (A * E)).
    Context (HCV : tb = true -> forall y e e' t, wf qb y -> t_prefix y <> [] -> (qb = true -> t_is_empty y = false) ->
               conv y e = Some (e', Ret t) ->
               (forall k, Rk None (lk y) k (lk t k)) /\ hd_of t = hd_of y /\ wf q t /\ (q = true -> t_is_empty t = false)).
    Context (HR : forall x y e, wf q x -> wf qb y -> tdone x y (rec x y e)).
    Notation M := (uchildren_with u strat rec ta tb conv).

    Lemma node_merge p v0 v' (ca : list A) w (cb : list B) e : wfc q ca -> wfc qb cb -> Own w -> Rk v0 (fun _ => w) [] v' ->
      tdone (Node p v0 ca) (Node p w cb) (ufinish p v' (M ca cb e)).
    Proof using EL EQ L AN HCV HR.
      intros Wa Wb HO HV.
      pose proof (uchildren_with_law L EQ u AN strat rec ta tb conv (fun (y : B) (t : A) => forall k, Rk None (lk y) k (lk t k))
                    (fun (x : A) (y : B) (t : A) => forall k, Rk (lk x k) (lk y) k (lk t k)) q qb ca cb Wa Wb) as C.
      assert (H1 : tb = true -> forall y e e' t, In y cb -> conv y e = Some (e', Ret t) ->
        (forall k, Rk None (lk y) k (lk t k)) /\ hd_of t = hd_of y /\ wf q t /\ (q = true -> t_is_empty t = false)).
      { intros Tb y e0 e' t Iy Hc. destruct (wfc_In _ _ _ Wb Iy) as (P1 & P2 & P3). now apply (HCV Tb y e0 e'). }
      specialize (C H1). clear H1.
      assert (H2 : forall x y e e' t, In x ca -> In y cb -> hd_of x = hd_of y -> rec x y e = Done (t, e') ->
        (forall k, Rk (lk x k) (lk y) k (lk t k)) /\ wf q t /\ (t_is_empty t = false -> hd_of t = hd_of x)).
      { intros x y e0 e' t Ix Iy Hh Hr. destruct (wfc_In _ _ _ Wa Ix) as (P1 & P2 & _). destruct (wfc_In _ _ _ Wb Iy) as (_ & P3 & _).
        pose proof (HR x y e0 P2 P3) as G. rewrite Hr in G. destruct G as (G1 & G2 & G3). split; [auto|]. split; [auto|]. intros Ne.
        destruct (ne_hd x P1) as [h Qh]. rewrite Qh. apply G3; auto. congruence. }
      specialize (C H2 e). clear H2.
      destruct (M ca cb e) as [[l e']|[l e']|]; cbn [ufinish tdone]; [| |exact I].
      - pose proof (all_slots_R ca cb Wa Wb l C) as C2. destruct C as [W C]. split; [|split].
        + intros k. rewrite (unsplit_lk (kcmp := kcmp) q) by exact W. now apply glue_R.
        + now apply unsplit_wf.
        + intros h Qh _ Ne. now apply unsplit_hd.
      - intros _. pose proof (some_slots_L ca cb Wa Wb l C) as C2. destruct C as [W C]. split.
        + apply wf_node. split; [|discriminate]. now apply (wfc_weaken q).
        + apply glue_L; auto. intros z ->. now apply (el_R EL).
    Qed.
    Lemma case_left p x r v (ca : list A) w (cb : list B) y' e : wfc q ca -> wf qb (Node (p ++ x :: r) w cb) ->
      recopied (Node (x :: r) w cb) y' ->
      tdone (Node p v ca) (Node (p ++ x :: r) w cb) (ufinish p (if ta then v else None) (M ca [y'] e)).
    Proof using EL EQ L AN HCV HR.
      intros Wa Wb R. assert (Wb' : wf qb (Node (x :: r) w cb)) by (eapply wf_shorten; [exact Wb|destruct p; discriminate]).
      pose proof R as (R1 & R2 & R3 & R4). cbn [t_prefix] in R1.
      assert (Cb : wfc qb [y']).
      { apply wfc_single; [rewrite R1; discriminate| |now apply R3]. intros Qb. rewrite R2. rewrite Qb in Wb'. now apply (wf_true_ne (kcmp := kcmp)). }
      assert (N : Rk v (fun _ => None) [] (if ta then v else None)) by (now apply (rk_none EL)).
      pose proof (node_merge p v _ ca None [y'] e Wa Cb (own_none EL) N) as T.
      eapply tdone_hd with (p := p); [exact T|reflexivity| |reflexivity|reflexivity|].
      - intros k. rewrite lk_longer. now apply once_through.
      - intros h H _. exact H.
    Qed.
    Lemma case_right p x r v (ca : list A) w (cb : list B) v' e : wf q (Node (p ++ x :: r) v ca) -> wfc qb cb ->
      Own w -> Rk None (fun _ => w) [] v' ->
      tdone (Node (p ++ x :: r) v ca) (Node p w cb) (ufinish p v' (M [Node (x :: r) v ca] cb e)).
    Proof using EL EQ L AN HCV HR.
      intros Wa Wb HO HV. pose proof (node_merge p None v' [Node (x :: r) v ca] w cb e (long_wfc q p x r v ca Wa) Wb HO HV) as T.
      eapply tdone_long; [exact T|reflexivity].
    Qed.
  End Merge.

End NodeLaw.

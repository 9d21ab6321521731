(** All threads together: every step keeps the resources of all threads and of the slots apart. *)
From Coq Require Import Permutation.
From Verif Require Export LconcSim.

Lemma perm_two {X} (a b : X) l m : Permutation (a :: l) (b :: m) ->
  (a = b /\ Permutation l m) \/ exists k, Permutation l (b :: k) /\ Permutation m (a :: k).
Proof.
  intros P. assert (Hb : In b (a :: l)) by (eapply Permutation_in; [symmetry; exact P|now left]). destruct Hb as [->|Hb].
  - left. split; auto. now apply Permutation_cons_inv in P.
  - right. apply in_split in Hb as (l1 & l2 & ->). exists (l1 ++ l2). split; [symmetry; apply Permutation_middle|].
    apply Permutation_cons_inv with (a := b). rewrite <- P. rewrite <- Permutation_middle. apply perm_swap.
Qed.

Section Threads.
  Context {K V : Type}.
  Notation tree := (rtree K V).
  Notation node := (node K V).
  Notation heap := (heap K V).
  Notation prog := (prog K V).
  Notation ent := (node * tree)%type.
  Implicit Types (h : heap) (ns C : list node) (ts : list tree) (O F : list ent) (z : regs ent) (Rs Os : list (@res K V)).
  Notation S := (@nil ent).
  Notation Sn := (fsts S).
  Notation St := (St S).
  Notation wp := (wp S).
  Notation su := Datatypes.S.
  Notation fs := (rmap fst).
  Notation ss := (rmap snd).

  Definition owns Rs : list ent := flat_map r_own Rs.
  Definition bors Rs : list nat := flat_map r_bor Rs.
  Lemma owns_perm Rs Os : Permutation Rs Os -> Permutation (fsts (owns Rs)) (fsts (owns Os)).
  Proof. intros P. apply Permutation_map. now apply Permutation_flat_map. Qed.
  Lemma bors_perm Rs Os : Permutation Rs Os -> Permutation (bors Rs) (bors Os).
  Proof. intros P. now apply Permutation_flat_map. Qed.
  Definition Gst h Rs : Prop := forall R Os, Permutation Rs (R :: Os) -> St h R (fsts (owns Os)) (bors Os).

  Lemma st_perm h R C C' D D' : Permutation C C' -> Permutation D D' -> St h R C D -> St h R C' D'.
  Proof.
    intros Pc Pd [I1 I2 I3 I4 I5 I6 I7]. constructor; auto.
    - eapply inv_perm; [|exact I1]. now do 2 apply Permutation_app_head.
    - eapply Permutation_NoDup; [|exact I4]. now apply Permutation_app_head.
    - intros b Hb. apply I5. eapply Permutation_in; [|exact Hb]. apply Permutation_app_head. now symmetry.
  Qed.
  Lemma gst_perm h Rs Os : Permutation Rs Os -> Gst h Rs -> Gst h Os.
  Proof. intros P H R Ts Q. apply H. now rewrite P. Qed.

  (** one resource takes a step *)
  Lemma gst_step h h' R R' Os : Gst h (R :: Os) -> St h' R' (fsts (owns Os)) (bors Os) ->
    lframe h h' (Sn ++ fsts (owns Os)) -> noforge S h (r_own R) h' (r_own R') -> Gst h' (R' :: Os).
  Proof.
    intros H T F N X Ys P. apply perm_two in P as [[-> P]|(Zs & P1 & P2)].
    - eapply st_perm; [apply owns_perm; exact P|apply bors_perm; exact P|exact T].
    - assert (PX : Permutation (R :: Os) (X :: R :: Zs)) by (rewrite P1; apply perm_swap).
      pose proof (H _ _ PX) as TX. pose proof T as [J1 J2 J3 J4 J5 J6 J7].
      cbn [owns bors flat_map] in TX. rewrite fsts_app in TX.
      pose proof (owns_perm _ _ P1) as Qo. pose proof (bors_perm _ _ P1) as Qb. cbn [owns bors flat_map] in Qo, Qb. rewrite fsts_app in Qo.
      pose proof (owns_perm _ _ P2) as Qo2. pose proof (bors_perm _ _ P2) as Qb2. cbn [owns bors flat_map] in Qo2, Qb2. rewrite fsts_app in Qo2.
      eapply st_perm; [symmetry; exact Qo2|symmetry; exact Qb2|].
      eapply (stable S h h' (r_own R) (r_own R') X (fsts (owns Zs)) (r_bor R ++ bors Zs)); auto.
      + eapply inv_perm; [|exact J1]. do 2 apply Permutation_app_head. exact Qo.
      + eapply lframe_incl; [|exact F]. intros x. rewrite !in_app_iff. intros [?|[?|?]]; [now left|right|right];
          (eapply Permutation_in; [symmetry; exact Qo|]); rewrite in_app_iff; auto.
      + eapply Permutation_NoDup; [|exact J4]. etransitivity; [apply Permutation_app_head; exact Qb|].
        rewrite !app_assoc. apply Permutation_app_tail, Permutation_app_comm.
      + intros b Hb. apply J5. rewrite in_app_iff in *. rewrite in_app_iff in Hb.
        destruct Hb as [?|[?|?]]; [right|now left|right]; (eapply Permutation_in; [symmetry; exact Qb|]); rewrite in_app_iff; auto.
  Qed.

  (** resources that only own *)
  Notation plain O := (MkR O [] [] []).
  Lemma plain_st h O C D : St h (plain O) C D <-> Inv h (Sn ++ fsts O ++ C) /\ dens h Sn (snds S) /\ dens h (fsts O) (snds O) /\ NoDup D /\
    (forall b, In b D -> h_cell h b = None /\ b < h_next h).
  Proof. split; [intros [I1 I2 I3 I4 I5 I6 I7]; auto|]. intros (I1 & I2 & I3 & I4 & I5). constructor; auto; easy. Qed.
  Lemma gst_merge h O1 O2 Os : Gst h (plain O1 :: plain O2 :: Os) -> Gst h (plain (O1 ++ O2) :: Os).
  Proof.
    intros H X Ys P. apply perm_two in P as [[<- P]|(Zs & P1 & P2)].
    - pose proof (H (plain O1) (plain O2 :: Os) (Permutation_refl _)) as T1. pose proof (H (plain O2) (plain O1 :: Os) (perm_swap _ _ _)) as T2.
      apply plain_st in T1 as (I1 & I2 & I3 & I4 & I5). apply plain_st in T2 as (_ & _ & J3 & _).
      cbn [owns bors flat_map r_own r_bor app] in *. apply plain_st. rewrite !fsts_app, snds_app in *.
      pose proof (owns_perm _ _ P) as Qo. pose proof (bors_perm _ _ P) as Qb.
      split; [|split; [auto|split; [now apply dens_join|split]]].
      + eapply inv_perm; [|exact I1]. apply Permutation_app_head. rewrite <- app_assoc. do 2 apply Permutation_app_head. exact Qo.
      + eapply Permutation_NoDup; [exact Qb|exact I4].
      + intros b Hb. apply I5. eapply Permutation_in; [symmetry; exact Qb|exact Hb].
    - assert (PX : Permutation (plain O1 :: plain O2 :: Os) (X :: plain O1 :: plain O2 :: Zs)).
      { rewrite P1. rewrite (perm_swap X (plain O2) Zs). apply perm_swap. }
      pose proof (H _ _ PX) as T. cbn [owns bors flat_map r_own r_bor app] in T. 
      eapply st_perm; [symmetry; apply owns_perm; exact P2|symmetry; apply bors_perm; exact P2|].
      cbn [owns bors flat_map r_own r_bor app]. rewrite <- app_assoc. exact T.
  Qed.
  Lemma gst_split h O O1 O2 Os : Permutation O (O1 ++ O2) -> Gst h (plain O :: Os) -> Gst h (plain O1 :: plain O2 :: Os).
  Proof.
    intros PO H. pose proof (H _ _ (Permutation_refl _)) as T. apply plain_st in T as (I1 & I2 & I3 & I4 & I5).
    assert (Pf : Permutation (fsts O) (fsts O1 ++ fsts O2)) by (rewrite <- fsts_app; now apply Permutation_map).
    assert (D12 : (forall m t, In (m, t) O1 -> den h m t) /\ (forall m t, In (m, t) O2 -> den h m t)).
    { rewrite dens_ents in I3. split; intros m t Hi; apply I3; (eapply Permutation_in; [symmetry; exact PO|]); rewrite in_app_iff; auto. }
    destruct D12 as [D1 D2].
    intros X Ys P. apply perm_two in P as [[<- P]|(Zs & P1 & P2)].
    - apply plain_st. pose proof (owns_perm _ _ P) as Qo. pose proof (bors_perm _ _ P) as Qb. cbn [owns bors flat_map r_own r_bor app] in *.
      rewrite fsts_app in Qo. split; [|split; [auto|split; [now apply dens_ents|split]]].
      + eapply inv_perm; [|exact I1]. apply Permutation_app_head. rewrite Pf, <- app_assoc. apply Permutation_app_head. exact Qo.
      + eapply Permutation_NoDup; [exact Qb|exact I4].
      + intros b Hb. apply I5. eapply Permutation_in; [symmetry; exact Qb|exact Hb].
    - apply perm_two in P1 as [[<- P]|(Ws & P3 & P4)].
      + apply plain_st. pose proof (owns_perm _ _ P2) as Qo. pose proof (bors_perm _ _ P2) as Qb. cbn [owns bors flat_map r_own r_bor app] in *.
        rewrite fsts_app in Qo. pose proof (owns_perm _ _ P) as Ro. pose proof (bors_perm _ _ P) as Rb.
        split; [|split; [auto|split; [now apply dens_ents|split]]].
        * eapply inv_perm; [|exact I1]. apply Permutation_app_head. rewrite Pf, Qo. rewrite (app_assoc (fsts O2)).
          etransitivity; [apply Permutation_app_tail, Permutation_app_comm|]. apply Permutation_app_head. exact Ro.
        * eapply Permutation_NoDup; [|exact I4]. etransitivity; [exact Rb|symmetry; exact Qb].
        * intros b Hb. apply I5. eapply Permutation_in; [|exact Hb]. etransitivity; [exact Qb|symmetry; exact Rb].
      + assert (PX : Permutation (plain O :: Os) (X :: plain O :: Ws)) by (rewrite P3; apply perm_swap).
        pose proof (H _ _ PX) as T. cbn [owns bors flat_map r_own r_bor app] in T. rewrite fsts_app in T.
        assert (PY : Permutation Ys (plain O1 :: plain O2 :: Ws)) by (rewrite P2, P4; reflexivity).
        eapply st_perm; [symmetry; apply owns_perm; exact PY|symmetry; apply bors_perm; exact PY|].
        cbn [owns bors flat_map r_own r_bor app]. rewrite !fsts_app. 
        eapply st_perm; [|apply Permutation_refl|exact T]. unfold owns. rewrite app_assoc. now apply Permutation_app_tail.
  Qed.
  Lemma gst_plain h O O' Os : Permutation O O' -> Gst h (plain O :: Os) -> Gst h (plain O' :: Os).
  Proof.
    intros PO H. pose proof (H _ _ (Permutation_refl _)) as T. eapply gst_step; [exact H| |apply lframe_refl|].
    - eapply st_weaken; [|exact T]. now apply weaker_perm.
    - intros a Ha E. cbn [r_own] in *. rewrite cnt_app in E. rewrite (cnt_perm a (fsts O') (fsts O)); [lia|]. apply Permutation_map. now symmetry.
  Qed.

  (** ** The machine and its coarse counterpart *)
  Record cell := MkC { c_b : nat; c_t : thread K V; c_R : @res K V; c_v : regs tree * strat K V }.
  Definition thr (x : cell) : Prop :=
    match c_t x with
    | Idle s st => exists z, s = fs z /\ c_v x = (ss z, st) /\ c_R x = plain (held z)
    | Busy p k => exists o z, is_slot o = false /\ c_v x = (ss z, SDo o k) /\ wp (c_b x) p (c_R x) (call_post o z)
    end.
  Record Sim (m : mach K V) (vm : @vmach K V) (z : regs ent) (X : list cell) : Prop := {
    sim_g : Gst (m_heap m) (plain (held z) :: map c_R X);
    sim_sl : m_slots m = fs z;
    sim_vsl : v_slots vm = ss z;
    sim_t : m_threads m = map c_t X;
    sim_v : v_threads vm = map c_v X;
    sim_log : m_log m = v_log vm;
    sim_thr : Forall thr X }.

  Lemma map_upd {A B} (f : A -> B) i x l : map f (upd_nth i x l) = upd_nth i (f x) (map f l).
  Proof. unfold upd_nth. rewrite map_app, firstn_map. cbn [map]. now rewrite skipn_map. Qed.
  Lemma forall_upd {A} (P : A -> Prop) i x l : Forall P l -> P x -> Forall P (upd_nth i x l).
  Proof.
    intros H Hx. unfold upd_nth. apply Forall_app. split; [|constructor; auto].
    - rewrite Forall_forall in *. intros y Hy. apply H. rewrite <- (firstn_skipn i l). apply in_or_app. auto.
    - rewrite Forall_forall in *. intros y Hy. apply H. rewrite <- (firstn_skipn (su i) l). apply in_or_app. auto.
  Qed.
  Lemma upd_split {A} i (x : A) l : nth_error l i = Some x -> exists k, Permutation l (x :: k) /\ forall y, Permutation (upd_nth i y l) (y :: k).
  Proof.
    intros H. exists (firstn i l ++ skipn (su i) l). split.
    - rewrite (nth_split3 l i x H) at 1. symmetry. apply Permutation_middle.
    - intros y. unfold upd_nth. symmetry. apply Permutation_middle.
  Qed.
  (** thread [i] takes a step by itself *)
  Lemma gst_thread h h' z X i x R' : Gst h (plain (held z) :: map c_R X) -> nth_error X i = Some x ->
    (forall C D, St h (c_R x) C D -> exists h1, h1 = h' /\ St h1 R' C D /\ lframe h h1 (Sn ++ C) /\ noforge S h (r_own (c_R x)) h1 (r_own R')) ->
    forall x', c_R x' = R' -> Gst h' (plain (held z) :: map c_R (upd_nth i x' X)).
  Proof.
    intros H Hi Hs x' Ex. destruct (upd_split i (c_R x) (map c_R X)) as (k & P1 & P2); [now rewrite nth_error_map, Hi|].
    assert (H1 : Gst h (c_R x :: plain (held z) :: k)) by (eapply gst_perm; [|exact H]; rewrite P1; apply perm_swap).
    pose proof (H1 _ _ (Permutation_refl _)) as T. destruct (Hs _ _ T) as (h1 & -> & T' & F & N).
    eapply gst_perm; [|eapply gst_step; [exact H1|exact T'|exact F|exact N]]. rewrite map_upd, Ex, P2. apply perm_swap.
  Qed.
  (** thread [i], between calls, and the slots exchange what they own *)
  Lemma gst_swap h z1 z X i x (z' : regs ent) z1' x' : Gst h (plain (held z) :: map c_R X) -> nth_error X i = Some x -> c_R x = plain (held z1) ->
    Permutation (held z ++ held z1) (held z' ++ held z1') -> c_R x' = plain (held z1') -> Gst h (plain (held z') :: map c_R (upd_nth i x' X)).
  Proof.
    intros H Hi Ex P Ex'. destruct (upd_split i (c_R x) (map c_R X)) as (k & P1 & P2); [now rewrite nth_error_map, Hi|].
    assert (H1 : Gst h (plain (held z) :: plain (held z1) :: k)) by (eapply gst_perm; [|exact H]; rewrite P1, Ex; reflexivity).
    apply gst_merge in H1. apply (gst_split _ _ _ _ _ P) in H1. eapply gst_perm; [|exact H1]. rewrite map_upd, Ex', P2. reflexivity.
  Qed.

  (** what a step of thread [i] does to its entry, the log and the coarse machine *)
  Definition moved i (m : mach K V) (vm : @vmach K V) (x : cell) (m' : mach K V) (vm' : @vmach K V) (x' : cell) : Prop :=
    (m_log m' = m_log m /\ vm' = vm /\ (exists p k, c_t x' = Busy p k) /\
     match c_t x with
     | Idle s (SDo o k) => su (su (c_b x')) <= work o (fst (c_v x))
     | Busy _ _ => c_b x = su (c_b x')
     | Idle _ SEnd => False
     end) \/
    (exists a, m_log m' = (i, a) :: m_log m /\ vm' = vmstep i vm).

  Lemma work_two (o : cop K V) s : 2 <= work o s.
  Proof. unfold work. set (N := rnodes s). set (l := length (path_of o)). rewrite Nat.mul_add_distr_r. lia. Qed.

  (** thread [i] finishes a call *)
  Lemma finish m vm z X i x o k z1 h' z' z1' a : Sim m vm z X -> nth_error X i = Some x -> c_v x = (ss z1, SDo o k) ->
    vdo o (ss z) (ss z1) = (ss z', ss z1', a) ->
    Gst h' (plain (held z') :: map c_R (upd_nth i (MkC 0 (Idle (fs z1') (k a)) (plain (held z1')) (ss z1', k a)) X)) ->
    exists x, nth_error X i = Some x /\ exists z0 vm' x', Sim (MkM h' (fs z') (upd_nth i (Idle (fs z1') (k a)) (m_threads m)) ((i, a) :: m_log m)) vm' z0 (upd_nth i x' X) /\
      moved i m vm x (MkM h' (fs z') (upd_nth i (Idle (fs z1') (k a)) (m_threads m)) ((i, a) :: m_log m)) vm' x'.
  Proof.
    intros [Hg Hsl Hvsl Ht Hv Hlog Hthr] Hi Ev E Hg'. exists x. split; auto.
    exists z', (vmstep i vm), (MkC 0 (Idle (fs z1') (k a)) (plain (held z1')) (ss z1', k a)). split; [|right; exists a; auto].
    unfold vmstep. rewrite Hv, nth_error_map, Hi. cbn [option_map]. rewrite Ev, Hvsl, E.
    constructor; cbn [m_heap m_slots m_threads m_log v_slots v_threads v_log]; auto.
    - now rewrite map_upd, Ht.
    - now rewrite map_upd.
    - now rewrite Hlog.
    - apply forall_upd; auto. exists z1'. auto.
  Qed.
  Lemma finish_same m vm z X i x o k z1 a : Sim m vm z X -> nth_error X i = Some x -> c_v x = (ss z1, SDo o k) -> c_R x = plain (held z1) ->
    vdo o (ss z) (ss z1) = (ss z, ss z1, a) ->
    exists x, nth_error X i = Some x /\ exists z0 vm' x', Sim (MkM (m_heap m) (fs z) (upd_nth i (Idle (fs z1) (k a)) (m_threads m)) ((i, a) :: m_log m)) vm' z0 (upd_nth i x' X) /\
      moved i m vm x (MkM (m_heap m) (fs z) (upd_nth i (Idle (fs z1) (k a)) (m_threads m)) ((i, a) :: m_log m)) vm' x'.
  Proof.
    intros H Hi Ev ER E. eapply finish; eauto. eapply gst_swap; [apply H|exact Hi|exact ER|apply Permutation_refl|reflexivity].
  Qed.

  (** the owner of [n] clones it *)
  Lemma gst_clone h O Os n t : Gst h (plain O :: Os) -> In (n, t) O -> exists h', node_clone h n = Some (h', n) /\ Gst h' (plain ((n, t) :: O) :: Os).
  Proof.
    intros H Hi. pose proof (H _ _ (Permutation_refl _)) as T.
    assert (W : wp 1 (p_clone n) (plain O) (fun _ R' => R' = plain ((n, t) :: O))) by (now apply own_clone_wp).
    cbn [LconcLogic.wp] in W. destruct W as [(a & O1 & L1 & U1 & E & _)|W].
    { unfold p_clone in E. destruct (n_kids n); discriminate. }
    destruct (W h _ _ T) as (h' & p' & R' & E & T' & F & N & W'). exists h'.
    assert (En : node_clone h n = Some (h', n) /\ p' = PRet tt).
    { unfold node_clone. unfold p_clone in E. destruct (n_kids n) as [us|a]; cbn [pstep] in E; [injection E as -> <-; auto|].
      destruct (arc_clone h a); [injection E as -> <-; auto|discriminate]. }
    destruct En as [En ->]. split; auto.
    destruct W' as [(a & O1 & L1 & U1 & _ & P & Il & Iu & E1)|[]]. injection E1 as -> Eb -> ->.
    eapply gst_step; [exact H| |exact F|].
    - eapply st_weaken; [|exact T']. split; [exact P|]. split; [exact Eb|]. split; auto.
    - intros b Hb Eb0. cbn [r_own]. specialize (N b Hb Eb0). unfold fsts in *. rewrite <- (cnt_perm b _ _ (Permutation_map fst P)). exact N.
  Qed.

  Lemma sim_step m vm z X i : Sim m vm z X ->
    match mstep i m with
    | FaultT => False
    | SkipT => True
    | RanT m' => exists x, nth_error X i = Some x /\ exists z' vm' x', Sim m' vm' z' (upd_nth i x' X) /\ moved i m vm x m' vm' x'
    end.
  Proof.
    intros HS. pose proof HS as [Hg Hsl Hvsl Ht Hv Hlog Hthr]. unfold mstep. destruct (nth_error (m_threads m) i) as [t0|] eqn:Hn; auto.
    rewrite Ht, nth_error_map in Hn. assert (Hx : exists x, nth_error X i = Some x /\ c_t x = t0).
    { destruct (nth_error X i) as [x|]; [|discriminate]. injection Hn as <-. eauto. }
    destruct Hx as (x & Hi & Et). clear Hn.
    assert (Tx : thr x) by (rewrite Forall_forall in Hthr; apply Hthr; eapply nth_error_In; eauto).
    unfold thr in Tx. rewrite Et in Tx. destruct t0 as [s st|p k].
    - destruct st as [|o k]; auto. destruct Tx as (z1 & -> & Ev & ER).
      destruct (is_slot o) eqn:Qs.
      + destruct o as [j|t j|p v src j|t j|y path j|y path|j|j j'|j path p|j path v|j path pos src|j path pos j'|r y|y j|y j]; try discriminate; cbn [slot_op]; rewrite Hsl.
        * (* CSend *)
          rewrite rmap_take. destruct (rtake r z1) as [[[n t] z2]|] eqn:Q1; cbn [option_map]; [rewrite rmap_put|].
          2:{ eapply finish_same; eauto. cbn [vdo]. now rewrite rmap_take, Q1. }
          destruct (rput y (n, t) z) as [z'|] eqn:Q2; cbn [option_map].
          2:{ eapply finish_same; eauto. cbn [vdo]. rewrite rmap_take, Q1. cbn [option_map]. now rewrite rmap_put, Q2. }
          eapply finish; eauto.
          { cbn [vdo]. rewrite rmap_take, Q1. cbn [option_map]. now rewrite rmap_put, Q2. }
          eapply gst_swap; [exact Hg|exact Hi|exact ER| |reflexivity].
          rewrite (held_take _ _ _ _ Q1), (held_rput _ _ _ _ Q2). symmetry. apply Permutation_middle.
        * (* CRecv *)
          rewrite rmap_take. destruct (rtake y z) as [[[n t] z2]|] eqn:Q1; cbn [option_map]; [rewrite rmap_put|].
          2:{ eapply finish_same; eauto. cbn [vdo]. now rewrite rmap_take, Q1. }
          destruct (rput j (n, t) z1) as [z'|] eqn:Q2; cbn [option_map].
          2:{ eapply finish_same; eauto. cbn [vdo]. rewrite rmap_take, Q1. cbn [option_map]. now rewrite rmap_put, Q2. }
          eapply finish; eauto.
          { cbn [vdo]. rewrite rmap_take, Q1. cbn [option_map]. now rewrite rmap_put, Q2. }
          eapply gst_swap; [exact Hg|exact Hi|exact ER| |reflexivity].
          rewrite (held_take _ _ _ _ Q1), (held_rput _ _ _ _ Q2). apply Permutation_middle.
        * (* CPeek *)
          rewrite rmap_get. destruct (rget y z) as [[n t]|] eqn:Q1; cbn [option_map]; [rewrite rmap_put|].
          2:{ eapply finish_same; eauto. cbn [vdo]. now rewrite rmap_get, Q1. }
          destruct (rput j (n, t) z1) as [z'|] eqn:Q2; cbn [option_map].
          2:{ eapply finish_same; eauto. cbn [vdo]. rewrite rmap_get, Q1. cbn [option_map]. now rewrite rmap_put, Q2. }
          cbn [fst]. destruct (upd_split i (c_R x) (map c_R X)) as (l & P1 & P2); [now rewrite nth_error_map, Hi|].
          assert (H1 : Gst (m_heap m) (plain (held z) :: plain (held z1) :: l)) by (eapply gst_perm; [|exact Hg]; rewrite P1, ER; reflexivity).
          apply gst_merge in H1. destruct (gst_clone (m_heap m) _ l n t H1) as (h' & -> & H2).
          { apply in_or_app. left. eapply Permutation_in; [symmetry; apply (held_none z y _ Q1)|now left]. }
          eapply finish; eauto.
          { cbn [vdo]. rewrite rmap_get, Q1. cbn [option_map]. now rewrite rmap_put, Q2. }
          rewrite map_upd. eapply gst_perm; [|eapply (gst_split h' _ (held z) (held z') l); [|exact H2]].
          -- rewrite P2. reflexivity.
          -- rewrite (held_rput _ _ _ _ Q2). apply Permutation_middle.
      + replace (slot_op o (m_heap m) (m_slots m) (fs z1)) with (@SNone K V) by (destruct o; try discriminate; reflexivity).
        exists x. split; auto. exists z, vm, (MkC (work o (ss z1) - 2) (Busy (code o (fs z1)) k) (c_R x) (c_v x)). split.
        * constructor; cbn [m_heap m_slots m_threads m_log]; auto.
          -- eapply gst_thread; [exact Hg|exact Hi| |reflexivity]. intros C D T. eexists. split; [reflexivity|]. split; [exact T|]. split; [apply lframe_refl|].
             intros b Hb Eb. cbn [c_R] in *. rewrite cnt_app in Eb. lia.
          -- now rewrite map_upd, Ht.
          -- rewrite map_upd. cbn [c_v]. rewrite upd_nth_id; auto. now rewrite nth_error_map, Hi.
          -- apply forall_upd; auto. exists o, z1. cbn [c_t c_v c_R c_b]. split; auto. split; auto. rewrite ER. now apply code_wp.
        * left. cbn [m_log]. split; auto. split; auto. split; [cbn; eauto|]. rewrite Et, Ev. cbn [fst c_b]. pose proof (work_two o (ss z1)). lia.
    - destruct Tx as (o & z1 & Qs & Ev & W).
      assert (Hret : forall s a, p = PRet (s, a) -> exists x, nth_error X i = Some x /\ exists z0 vm' x', Sim (MkM (m_heap m) (m_slots m) (upd_nth i (Idle s (k a)) (m_threads m)) ((i, a) :: m_log m)) vm' z0 (upd_nth i x' X) /\
          moved i m vm x (MkM (m_heap m) (m_slots m) (upd_nth i (Idle s (k a)) (m_threads m)) ((i, a) :: m_log m)) vm' x').
      { intros s a ->.
        assert (W0 : exists O1 L1 U1, Permutation (r_own (c_R x)) O1 /\ incl L1 (r_len (c_R x)) /\ incl U1 (r_uni (c_R x)) /\ call_post o z1 (s, a) (MkR O1 (r_bor (c_R x)) L1 U1)).
        { destruct (c_b x) as [|b]; cbn [LconcLogic.wp] in W; (destruct W as [(a0 & O1 & L1 & U1 & E & P & Il & Iu & Hq)|W]; [injection E as <-; exists O1, L1, U1; auto|]); [easy|].
          exfalso. destruct (upd_split i (c_R x) (map c_R X)) as (l & P1 & P2); [now rewrite nth_error_map, Hi|].
          assert (H1 : Gst (m_heap m) (c_R x :: plain (held z) :: l)) by (eapply gst_perm; [|exact Hg]; rewrite P1; apply perm_swap).
          destruct (W _ _ _ (H1 _ _ (Permutation_refl _))) as (? & ? & ? & E & _). discriminate. }
        destruct W0 as (O1 & L1 & U1 & P & Il & Iu & (z2 & E1 & E2 & E3)). cbn [fst snd] in E1, E2. injection E3 as -> Eb -> ->. rewrite E1, Hsl.
        eapply finish; eauto.
        { destruct o; try discriminate; unfold vdo; rewrite E2; reflexivity. }
        eapply gst_thread; [exact Hg|exact Hi| |reflexivity]. intros C D T. eexists. split; [reflexivity|]. cbn [c_R]. split; [|split; [apply lframe_refl|]].
        - eapply st_weaken; [|exact T]. split; [exact P|]. split; [exact Eb|]. split; auto.
        - intros b Hb Eb0. cbn [r_own]. unfold fsts in *. rewrite <- (cnt_perm b _ _ (Permutation_map fst P)). rewrite cnt_app in Eb0. lia. }
      assert (Hrun : (forall r, p <> PRet r) -> match pstep (m_heap m) p with
          | Some (h1, p1) => exists x, nth_error X i = Some x /\ exists z0 vm' x', Sim (MkM h1 (m_slots m) (upd_nth i (Busy p1 k) (m_threads m)) (m_log m)) vm' z0 (upd_nth i x' X) /\
              moved i m vm x (MkM h1 (m_slots m) (upd_nth i (Busy p1 k) (m_threads m)) (m_log m)) vm' x'
          | None => False
          end).
      { intros Hn. destruct (c_b x) as [|b] eqn:Eb; cbn [LconcLogic.wp] in W.
        { destruct W as [(a0 & O1 & L1 & U1 & E & _)|[]]. now apply Hn in E. }
        destruct W as [(a0 & O1 & L1 & U1 & E & _)|W]; [now apply Hn in E|].
        destruct (upd_split i (c_R x) (map c_R X)) as (l & P1 & P2); [now rewrite nth_error_map, Hi|].
        assert (H1 : Gst (m_heap m) (c_R x :: plain (held z) :: l)) by (eapply gst_perm; [|exact Hg]; rewrite P1; apply perm_swap).
        destruct (W _ _ _ (H1 _ _ (Permutation_refl _))) as (h' & p' & R' & E & T' & F & N & W'). rewrite E.
        exists x. split; auto. exists z, vm, (MkC b (Busy p' k) R' (c_v x)). split.
        - constructor; cbn [m_heap m_slots m_threads m_log]; auto.
          + rewrite map_upd. cbn [c_R]. eapply gst_perm; [|eapply gst_step; [exact H1|exact T'|exact F|exact N]]. rewrite P2. apply perm_swap.
          + now rewrite map_upd, Ht.
          + rewrite map_upd. cbn [c_v]. rewrite upd_nth_id; auto. now rewrite nth_error_map, Hi.
          + apply forall_upd; auto. exists o, z1. auto.
        - left. cbn [m_log]. split; auto. split; auto. split; [cbn; eauto|]. now rewrite Et. }
      destruct p as [[s a]| | | | | | | | | | |]; [now apply Hret|..]; cbn [pstep] in Hrun |- *; (specialize (Hrun ltac:(discriminate)));
        repeat match goal with
        | |- context[match ?e with _ => _ end] => match type of e with
          | option (nat * list node) => destruct e as [[[|[|?]] ?]|]
          | option heap => destruct e
          | option node => destruct e
          | option (heap * node) => destruct e as [[? ?]|]
          | (list tree + nat)%type => destruct e
          | bool => destruct e
          end
        end; auto.
  Qed.
End Threads.

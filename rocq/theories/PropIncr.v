(** Properties C89, C90: how much a flush appends after changes in place, and that changing a tree in place never makes it
    share memory with the argument. *)
From Coq Require Import Permutation.
From Verif Require Import RadixReach PropRadix PropHeapOps PropPersist.
From Verif Require Export PropAlloc PersistIncr.

Section C89.
  Context {K V : Type} {kcmp : K -> K -> comparison} (L : OrdLaws kcmp) (E : OrdEq kcmp) (strat : nat -> nat -> bool).
  Notation tree := (rtree K V).
  Notation no_files := (MkD (K := K) (V := V) None None).
  (** the vectors that have been created since *)
  Notation created b b' := (h_next (fst (b_mem b')) - h_next (fst (b_mem b))).

  (** the last thing that was done made the tree known: a flush or vacuum that returned, or a start of the process *)
  Definition settles (o : dop K V) : Prop := saves o \/ o = DRestart.
  Lemma settled F o b x x' l : settles o -> bgood b (fst x) (snd x) -> s_step kcmp strat o x = Some (x', l) -> need x <= F ->
    exists b', db_step kcmp strat F o b = Some (b', l) /\ bgood b' (fst x') (snd x') /\ keeps0 (known b') (b_mem b').
  Proof.
    destruct x as [vs od]. cbn [fst snd]. unfold need. cbn [fst snd]. intros [Hs| ->] G H HF.
    - assert (E0 : exists t, rget 0 vs = Some t /\ x' = (vs, Some t) /\ l = []).
      { destruct Hs as [-> | ->]; cbn [s_step] in H; destruct (rget 0 vs) as [t|]; try discriminate; injection H as <- <-; eauto. }
      destruct E0 as (t & Ht & -> & ->). pose proof (rget_bound vs 0 t Ht). cbn [fst snd].
      destruct (save_rooted kcmp strat F o b vs od t Hs G Ht ltac:(lia)) as (b' & Q & G' & R). exists b'. split; auto. split; auto. eapply known_keeps; eauto.
    - cbn [s_step db_step] in *. destruct od as [t|]; [|discriminate]. destruct vs as [|v vs]; [discriminate|]. injection H as <- <-.
      rewrite (rel_len _ _ _ (bg_rel _ _ _ G)). cbn [length].
      destruct (load_good F (length vs) (b_disk b) t) as (b' & -> & G' & _ & R).
      { apply (bg_disk _ _ _ G). reflexivity. }
      { lia. }
      exists b'. split; auto. cbn [fst snd]. rewrite map_const. split; auto. eapply known_keeps; eauto. destruct R as [R|[_ R]]; auto.
  Qed.

  (** ** C89: after any history, and any sequence of calls that change the tree of the database in place (with any other trees as arguments),
      snapshots and reads, a flush appends at most one record per vector that these calls created, and two more - whatever
      the size of the tree. *)
  Theorem C89_flush_after_changes (n : nat) (os : list (dop K V)) (o : dop K V) (us : list (api K V)) x1 out1 x2 out2 t :
    settles o -> forallb updates us = true ->
    s_run kcmp strat (os ++ [o]) (s_init n) = Some (x1, out1) -> s_run kcmp strat (map DUser us) x1 = Some (x2, out2) -> rget 0 (fst x2) = Some t ->
    exists F0, forall F, F0 <= F -> exists b0 b1 b2 b3 e, db_load F (S n) no_files = Some b0 /\
      db_run kcmp strat F (os ++ [o]) b0 = Some (b1, out1) /\ db_run kcmp strat F (map DUser us) b1 = Some (b2, out2) /\
      db_flush F Written b2 = Some b3 /\ contents (d_main (b_disk b3)) = contents (d_main (b_disk b2)) ++ e /\
      length e <= created b1 b2 + 2.
  Proof.
    intros Ho U H1 H2 Ht.
    assert (Sp : exists x l1 l2, s_run kcmp strat os (s_init n) = Some (x, l1) /\ s_step kcmp strat o x = Some (x1, l2) /\ out1 = l1 ++ l2).
    { clear - H1. revert H1. generalize (s_init (K := K) (V := V) n) as x0. revert out1. induction os as [|o' os IH]; intros out1 x0 H1; cbn [app s_run] in *.
      - destruct (s_step kcmp strat o x0) as [[x l]|] eqn:Q; [|discriminate]. injection H1 as <- <-. exists x0, [], l. rewrite app_nil_r. auto.
      - destruct (s_step kcmp strat o' x0) as [[x l]|] eqn:Q; [|discriminate]. destruct (s_run kcmp strat (os ++ [o]) x) as [[x' l']|] eqn:Q2; [|discriminate]. injection H1 as <- <-.
        destruct (IH _ _ Q2) as (y & m1 & m2 & -> & A & ->). exists y, (l ++ m1), m2. now rewrite app_assoc. }
    destruct Sp as (x & l1 & l2 & Hx & Hs & ->). destruct (reached kcmp strat n os x l1 Hx) as (F1 & R1). destruct (run_bgood kcmp strat _ _ _ _ H2) as (F2 & R2).
    exists (Nat.max (Nat.max F1 F2) (Nat.max (need x) (tsize t))). intros F HF. destruct (R1 F ltac:(lia)) as (b0 & b & Q0 & Q & G).
    destruct (settled F o b x x1 l2 Ho G Hs ltac:(lia)) as (b1 & Q1 & G1 & N1). destruct (R2 F b1 ltac:(lia) G1) as (b2 & Q2 & G2).
    destruct (update_run kcmp strat (known b1) F us) with (b := b1) (b' := b2) (l := out2) as (N2 & Em & Ed); auto.
    { right. now right. }
    destruct (flush_known F b2 b1 (fst x2) (snd x2) t G2 Ht ltac:(lia) N2 Em) as (b3 & e & Q3 & E3 & Le).
    exists b0, b1, b2, b3, e. split; auto. split; [|split; [auto|split; [auto|split; [auto|lia]]]].
    eapply db_run_app; [exact Q|]. cbn [db_run]. rewrite Q1. now rewrite app_nil_r.
  Qed.

  (** *** the trees stay canonical *)
  Definition dpublic (o : dop K V) : Prop := match o with DUser o => public kcmp o | _ => True end.
  Definition canon_regs (vs : regs tree) : Prop := forall i t, rget i vs = Some t -> Canon kcmp t.
  Lemma canon_agree (vs : regs tree) : canon_regs vs -> agree (kcmp := kcmp) vs (map (option_map has) vs).
  Proof.
    intros C. induction vs as [|o vs IH]; cbn; constructor.
    - destruct o as [t|]; cbn; auto. split; [apply (C 0 t); reflexivity|]. intros k v. reflexivity.
    - apply IH. intros i t H. apply (C (S i) t). exact H.
  Qed.
  Lemma agree_canon (vs : regs tree) ms : agree (kcmp := kcmp) vs ms -> canon_regs vs.
  Proof. intros A i t H. pose proof (agree_get vs ms i A) as X. rewrite H in X. destruct (rget i ms); easy. Qed.
  Definition canon_db (x : sdb (K := K) (V := V)) : Prop := canon_regs (fst x) /\ forall t, snd x = Some t -> Canon kcmp t.
  Lemma step_canon o x x' l : dpublic o -> canon_db x -> s_step kcmp strat o x = Some (x', l) -> canon_db x'.
  Proof.
    destruct x as [vs od]. intros P [C D] H. cbn [fst snd] in *. destruct o as [o|o|o moved|]; cbn [s_step] in H.
    - destruct (pstep kcmp strat o vs) as [[vs' l']|] eqn:Q; [|discriminate]. injection H as <- <-. split; auto. cbn [fst].
      pose proof (step_same L E strat o vs _ P (canon_agree vs C)) as S. rewrite Q in S. destruct (mstep kcmp o _) as [[ms A]|]; cbn in S; [|easy]. eapply agree_canon, S.
    - destruct o; destruct (rget 0 vs) as [t|] eqn:Q; try discriminate; injection H as <- <-; split; auto; cbn [snd]; intros u Hu.
      + injection Hu as <-. eauto.
      + cbn in Hu. destruct k; [destruct junk|]; auto; discriminate.
    - destruct o, moved; destruct (rget 0 vs) as [t|] eqn:Q; try discriminate; injection H as <- <-; split; auto; cbn [snd]; intros u Hu.
      injection Hu as <-. eauto.
    - destruct od as [t|]; [|discriminate]. destruct vs as [|v vs]; [discriminate|]. injection H as <- <-. split; auto. cbn [fst]. intros i u Hu.
      unfold rget in Hu. destruct i as [|i]; cbn in Hu; [injection Hu as <-; auto|]. destruct (nth_error _ i) as [[w|]|] eqn:Q; try discriminate.
      apply nth_error_In, in_map_iff in Q as (? & ? & _). discriminate.
  Qed.
  Lemma run_canon os : forall x x' l, Forall dpublic os -> canon_db x -> s_run kcmp strat os x = Some (x', l) -> canon_db x'.
  Proof.
    induction os as [|o os IH]; intros x x' l P C H; cbn [s_run] in H; [injection H as <- <-; auto|]. inversion P as [|? ? Po P']; subst.
    destruct (s_step kcmp strat o x) as [[x1 l1]|] eqn:Q; [|discriminate]. destruct (s_run kcmp strat os x1) as [[x2 l2]|] eqn:Q2; [|discriminate]. injection H as <- <-.
    eapply IH; [exact P'| |exact Q2]. eapply step_canon; eauto.
  Qed.
  Lemma init_canon n : canon_db (s_init n).
  Proof.
    split; cbn; [|intros t [= <-]; apply empty_canon]. intros i t H. unfold rget in H. destruct i as [|i]; cbn in H; [injection H as <-; apply empty_canon|].
    destruct (nth_error _ i) as [[w|]|] eqn:Q; try discriminate. apply nth_error_In, repeat_spec in Q. discriminate.
  Qed.

  (** *** inserts *)
  Definition inserts (kvs : list (list K * V)) : list (api K V) := map (fun kv => AInsert 0 (fst kv) (snd kv)) kvs.
  Lemma inserts_update kvs : forallb updates (inserts kvs) = true.
  Proof. induction kvs; cbn; auto. Qed.
  Lemma inserts_public kvs : Forall dpublic (map DUser (inserts kvs)).
  Proof. induction kvs; cbn; constructor; cbn; auto. Qed.
  Definition room (kvs : list (list K * V)) : nat := list_sum (map (fun kv => length (fst kv) + 2) kvs).
  Lemma inserts_cost F (kvs : list (list K * V)) : forall x x' l b b', canon_db x -> bgood b (fst x) (snd x) -> s_run kcmp strat (map DUser (inserts kvs)) x = Some (x', l) ->
    db_run kcmp strat F (map DUser (inserts kvs)) b = Some (b', l) ->
    (forall os1 os2 y m, map DUser (inserts kvs) = os1 ++ os2 -> s_run kcmp strat os1 x = Some (y, m) -> need y + 2 <= F) ->
    h_next (fst (b_mem b')) <= h_next (fst (b_mem b)) + room kvs.
  Proof.
    induction kvs as [|[k v] kvs IH]; intros x x' l b b' C G H Q HF; [cbn in Q; injection Q as <- <-; lia|].
    cbn [inserts map fst snd] in H, Q, HF. cbn [s_run db_run] in H, Q. destruct (s_step kcmp strat (DUser (AInsert 0 k v)) x) as [[x1 l1]|] eqn:Q1; [|discriminate].
    destruct (s_run kcmp strat (map DUser _) x1) as [[x2 l2]|] eqn:Q2; [|discriminate]. injection H as <- <-.
    pose proof (HF [] _ x [] eq_refl eq_refl) as HF0.
    destruct (step_bgood kcmp strat F _ b x x1 l1 G Q1 ltac:(lia)) as (b1 & Qb & G1). rewrite Qb in Q.
    destruct (db_run kcmp strat F (map DUser _) b1) as [[b2 l2']|] eqn:Q3; [|discriminate]. injection Q as <- El. apply app_inv_head in El. subst l2'.
    assert (C1 : canon_db x1) by (eapply step_canon; [|exact C|exact Q1]; exact Logic.I).
    assert (A : h_next (fst (b_mem b1)) <= h_next (fst (b_mem b)) + (length k + 2)).
    { clear - L E Qb Q1 G C HF0. destruct x as [vs od]. cbn [s_step db_step fst snd] in *. destruct C as [C _]. cbn [fst snd] in *. unfold need in HF0. cbn [fst snd] in HF0.
      destruct (pstep kcmp strat (AInsert 0 k v) vs) as [[vs' l']|] eqn:Q; [|discriminate]. cbn [pstep] in Q.
      destruct (rtake 0 vs) as [[x v1]|] eqn:Qt; [|discriminate]. destruct (rt_insert kcmp strat x k v) as [x'| |] eqn:Qa; try discriminate.
      destruct b as [[h s] d m P pos]. destruct G as [I Ds R _ _ _ _]. cbn [b_mem b_disk b_map b_arcs b_pos fst snd] in *.
      destruct (rtake_rel h s vs 0 x v1 R Qt) as (n0 & s1 & Qs & D & R1 & P1). cbn [astep] in Qb. rewrite Qs in Qb.
      assert (Gi : rget 0 vs = Some x) by (eapply rtake_get; eauto).
      assert (Co : costs h (h_insert kcmp strat true F k v h n0) (length k + 2)).
      { eapply (insert_cost strat F k v h (static :: nodes_of s1 ++ map pin P) n0 x x'); auto.
        - eapply inv_perm; [|exact I]. rewrite P1. apply perm_swap.
        - split; auto. now left.
        - pose proof (depth_get _ _ _ Gi). lia.
        - eapply wf_NE. apply (C 0 x Gi). }
      unfold into_reg in Qb. destruct (h_insert kcmp strat true F k v h n0) as [[h1 n1]|]; [|discriminate]. destruct (rput 0 n1 s1); [|discriminate].
      injection Qb as <- _. specialize (Co h1 n1 eq_refl). cbn [b_mem fst]. lia. }
    pose proof (IH x1 x2 l2 b1 b2 C1 G1 Q2 Q3) as IH'. unfold room in *. cbn [map list_sum fold_right fst] in *. unfold list_sum in IH'.
    assert (X : h_next (fst (b_mem b2)) <= h_next (fst (b_mem b1)) + fold_right Init.Nat.add 0 (map (fun kv => length (fst kv) + 2) kvs)).
    { apply IH'. intros os1 os2 y m Eq Hy. apply (HF (DUser (AInsert 0 k v) :: os1) os2 y (l1 ++ m)).
      - cbn. f_equal. exact Eq.
      - cbn [s_run]. now rewrite Q1, Hy. }
    lia.
  Qed.
  Lemma prefix_needs os : forall (x : sdb (K := K) (V := V)), exists B, forall os1 os2 y m, os = os1 ++ os2 -> s_run kcmp strat os1 x = Some (y, m) -> need y + 2 <= B.
  Proof.
    induction os as [|o os IH]; intros x.
    - exists (need x + 2). intros os1 os2 y m Eq Hy. destruct os1; [|discriminate]. cbn in Hy. injection Hy as <- _. lia.
    - destruct (s_step kcmp strat o x) as [[x1 l1]|] eqn:Q.
      + destruct (IH x1) as (B & HB). exists (Nat.max B (need x + 2)). intros os1 os2 y m Eq Hy. destruct os1 as [|o1 os1]; [cbn in Hy; injection Hy as <- _; lia|].
        injection Eq as <- Eq. cbn [s_run] in Hy. rewrite Q in Hy. destruct (s_run kcmp strat os1 x1) as [[x2 l2]|] eqn:Q2; [|discriminate]. injection Hy as <- _.
        pose proof (HB _ _ _ _ Eq Q2). lia.
      + exists (need x + 2). intros os1 os2 y m Eq Hy. destruct os1 as [|o1 os1]; [cbn in Hy; injection Hy as <- _; lia|].
        injection Eq as <- Eq. cbn [s_run] in Hy. rewrite Q in Hy. discriminate.
  Qed.

  (** inserting bindings: per binding one record for every component of its key and two more, and then two more - whatever the size of the
      tree and of what has been shared with snapshots *)
  Theorem C89_flush_after_inserts (n : nat) (os : list (dop K V)) (o : dop K V) (kvs : list (list K * V)) x1 out1 x2 out2 t :
    settles o -> Forall dpublic os ->
    s_run kcmp strat (os ++ [o]) (s_init n) = Some (x1, out1) -> s_run kcmp strat (map DUser (inserts kvs)) x1 = Some (x2, out2) -> rget 0 (fst x2) = Some t ->
    exists F0, forall F, F0 <= F -> exists b0 b1 b2 b3 e, db_load F (S n) no_files = Some b0 /\
      db_run kcmp strat F (os ++ [o]) b0 = Some (b1, out1) /\ db_run kcmp strat F (map DUser (inserts kvs)) b1 = Some (b2, out2) /\
      db_flush F Written b2 = Some b3 /\ contents (d_main (b_disk b3)) = contents (d_main (b_disk b2)) ++ e /\
      length e <= list_sum (map (fun kv => length (fst kv) + 2) kvs) + 2.
  Proof.
    intros Ho P H1 H2 Ht. destruct (C89_flush_after_changes n os o (inserts kvs) x1 out1 x2 out2 t Ho (inserts_update kvs) H1 H2 Ht) as (F0 & H0).
    destruct (prefix_needs (map DUser (inserts kvs)) x1) as (B & HB). destruct (reached kcmp strat n _ _ _ H1) as (F1 & R1).
    exists (Nat.max (Nat.max F0 F1) B). intros F HF. destruct (H0 F ltac:(lia)) as (b0 & b1 & b2 & b3 & e & Q0 & Q1 & Q2 & Q3 & Q4 & Le).
    exists b0, b1, b2, b3, e. split; auto. split; auto. split; auto. split; auto. split; auto.
    destruct (R1 F ltac:(lia)) as (b0' & b1' & Q0' & Q1' & G1). rewrite Q0 in Q0'. injection Q0' as <-. rewrite Q1 in Q1'. injection Q1' as <-.
    assert (C1 : canon_db x1).
    { eapply run_canon; [|apply (init_canon n)|exact H1]. apply Forall_app. split; auto. constructor; auto. destruct Ho as [[-> | ->]| ->]; exact Logic.I. }
    assert (X : h_next (fst (b_mem b2)) <= h_next (fst (b_mem b1)) + room kvs).
    { eapply (inserts_cost F kvs x1 x2 out2 b1 b2); eauto. intros os1 os2 y m Eq Hy. pose proof (HB _ _ _ _ Eq Hy). lia. }
    unfold room in X. lia.
  Qed.
End C89.

(** ** C90 *)
Section C90.
  Context {K V : Type} (kcmp : K -> K -> comparison) (strat : nat -> nat -> bool).
  Notation node := (node K V).
  Notation heap := (heap K V).
  Notation state := (state K V).

  (** the calls that change the tree in register [i] in place: insert, prepend and the five "..._with" combinations *)
  Definition changes (o : api K V) : option nat :=
    match o with
    | AInsert i _ _ | APrepend i _ | AOuterWith _ i _ | AInnerWith _ i _ | ALeftWith _ i _ | ARemoveWith _ i _ | ARetainWith _ i _ => Some i
    | _ => None
    end.
  (** vector [a] is part of the trees in both registers *)
  Definition shared (st : state) (i j a : nat) : Prop :=
    exists r q, rget i (snd st) = Some r /\ rget j (snd st) = Some q /\ reach (fst st) r a /\ reach (fst st) q a.

  Lemma take_get {X} i (s s1 : regs X) x : rtake i s = Some (x, s1) -> rget i s = Some x.
  Proof. unfold rtake. destruct (rget i s); [|discriminate]. now intros [= -> _]. Qed.
  Lemma reach_frame (h h' : heap) n a : frame h h' [n] -> (exists t, den h n t) -> reach h' n a -> reach h n a.
  Proof.
    intros F D R. induction R as [n a Q|n a rc ns c b Q Ha Hc R IH]; [now constructor|]. destruct D as (t & D).
    destruct n as [p v k]. cbn [n_kids] in Q. subst k. inversion D as [|? ? ? rc0 ns0 ts Q0 Ds]; subst.
    destruct (F a rc0 ns0) as (rc' & E); auto. { exists (MkN p v (inr a)). split; [now left|now constructor]. }
    rewrite Ha in E. injection E as <- <-. eapply reach_below; [reflexivity|exact Q0|exact Hc|]. apply IH.
    - intros x rx nx (m & [<-|[]] & Rm) Hx. apply (F x rx nx); auto. exists (MkN p v (inr a)). split; [now left|]. eapply reach_below; [reflexivity|exact Q0|exact Hc|exact Rm].
    - eapply dens_member; eauto.
  Qed.
  (** what is not in register [i] stays where it is *)
  Lemma changes_others arc o i vs vs' out F h s st l : changes o = Some i -> pstep kcmp strat o vs = Some (vs', out) -> 2 * depth vs <= F -> good (h, s) vs ->
    astep kcmp strat arc F o (h, s) = Some (st, l) -> forall j n, j <> i -> rget j (snd st) = Some n -> rget j s = Some n /\ frame h (fst st) [n].
  Proof.
    intros Ho H Hf G Hs j n N Hj. pose proof (good_St _ _ _ G) as S. pose proof G as (I & Ds & R). cbn [fst snd] in I, Ds, R.
    assert (Put : forall m (s1 s2 : regs node), rtake i s = Some (m, s1) -> forall m', rput i m' s1 = Some s2 -> rget j s2 = Some n -> rget j s = Some n /\ In n (nodes_of s1)).
    { intros m s1 s2 Qt m' Qp Q2. assert (E : rget j s1 = Some n).
      { rewrite <- Q2. symmetry. unfold rput in Qp. destruct (nth_error s1 i) as [[?|]|] eqn:Qi; try discriminate. injection Qp as <-. unfold rget. rewrite nth_upd_other; auto. apply nth_error_Some. congruence. }
      split; [rewrite <- E; symmetry; eapply rtake_other; eauto|eapply rget_nodes; eauto]. }
    assert (W : forall b (act : heap -> node -> node -> option (heap * node)) pact, (forall k, recok (pact k) act F) ->
      p_in_place (fun x y => pact (Datatypes.S (t_size x + t_size y)) x y) i b vs = Some (vs', out) -> in_place act i b (h, s) = Some (st, l) -> rget j s = Some n /\ frame h (fst st) [n]).
    { intros b act pact Hr Hp Hi. unfold p_in_place in Hp. unfold in_place in Hi. destruct (rtake i vs) as [[x v1]|] eqn:Q; [|discriminate]. destruct (rget b v1) as [y|] eqn:Qb; [|discriminate].
      destruct (pact _ x y) as [x'| |] eqn:Qa; try discriminate.
      pose proof (depth_get _ _ _ (rtake_get _ _ _ _ Q)) as E1. pose proof (depth_get _ _ _ (rtake_get2 _ _ _ _ _ _ Q Qb)) as E2.
      destruct (rtake_rel h s vs i x v1 R Q) as (m & s1 & Qs & D & R1 & P1). rewrite Qs in Hi. destruct (rget_rel h s1 v1 b y R1 Qb) as (m2 & Qm & Dm & Im). rewrite Qm in Hi.
      assert (Y : yield1 h (static :: nodes_of s1) (act h m m2) x').
      { eapply Hr; eauto; [eapply inv_perm; [|exact I]; rewrite P1; apply perm_swap|split; auto; now left|right; left; now right|lia]. }
      destruct Y as (h1 & m1 & Qy & _ & _ & Fr & _). rewrite Qy in Hi. destruct (rput i m1 s1) as [s2|] eqn:Qp; [|discriminate]. injection Hi as <- <-. cbn [fst snd] in *.
      destruct (Put _ _ _ Qs _ Qp Hj) as [A B]. split; auto. eapply frame_incl; [|exact Fr]. apply one_incl. now right. }
    destruct o as [o|k v b|i' k v|i' p|i' p b|f i' b|f i' b|f i' b|f i' b|f i' b|f a b k|f a b k|f a b k|i' k|i'|a b|a b]; try discriminate; cbn [changes pstep astep] in *; injection Ho as ->.
    - destruct (rtake i vs) as [[x v1]|] eqn:Q; [|discriminate]. destruct (rt_insert kcmp strat x k v) as [x'| |] eqn:Qa; try discriminate.
      pose proof (depth_get _ _ _ (rtake_get _ _ _ _ Q)) as E1. destruct (rtake_rel h s vs i x v1 R Q) as (m & s1 & Qs & D & R1 & P1). rewrite Qs in Hs.
      destruct (insert_yield kcmp strat arc F k v h (static :: nodes_of s1) m x x') as (h1 & m1 & Qy & _ & _ & Fr & _); auto.
      { eapply inv_perm; [|exact I]. rewrite P1. apply perm_swap. }
      { split; auto. now left. }
      { lia. }
      rewrite Qy in Hs. unfold into_reg in Hs. destruct (rput i m1 s1) as [s2|] eqn:Qp; [|discriminate]. injection Hs as <- <-. cbn [fst snd] in *.
      destruct (Put _ _ _ Qs _ Qp Hj) as [A B]. split; auto. eapply frame_incl; [|exact Fr]. apply one_incl. now right.
    - destruct (rtake i s) as [[m s1]|] eqn:Qs; [|discriminate]. destruct (h_prepend h m p) as [m1|]; [|discriminate]. unfold into_reg in Hs.
      destruct (rput i m1 s1) as [s2|] eqn:Qp; [|discriminate]. injection Hs as <- <-. cbn [fst snd] in *. destruct (Put _ _ _ eq_refl _ Qp Hj) as [A B]. split; auto. apply frame_refl.
    - eapply W; [|exact H|exact Hs]. apply outer_refines.
    - eapply W; [|exact H|exact Hs]. apply inner_refines.
    - eapply W; [|exact H|exact Hs]. apply left_refines.
    - eapply W; [|exact H|exact Hs]. apply remove_refines.
    - eapply W; [|exact H|exact Hs]. apply retain_refines.
  Qed.
  (** what is in register [i] afterwards had been there, is the shared empty vector or is new *)
  Lemma changes_within arc o i F h s r st l r' a : changes o = Some i -> astep kcmp strat arc F o (h, s) = Some (st, l) -> (forall b rc ns, h_cell h b = Some (rc, ns) -> b < h_next h) ->
    (exists rc, h_cell h 0 = Some (rc, [])) -> rget i s = Some r -> rget i (snd st) = Some r' -> reach (fst st) r' a -> reach h r a \/ a = 0 \/ h_next h <= a.
  Proof.
    intros Ho Hs Lt Z Hr Hr' Ha. set (S := fun a => reach h r a \/ a = 0 \/ h_next h <= a).
    assert (S0 : S 0) by (right; now left). assert (C : closed S True h).
    { constructor; [|intros b Hb; right; now right]. intros b rc ns [Rb|[-> |Hb]] Hc.
      - apply Forall_forall. intros c Hin. unfold nin. destruct (n_kids c) as [?|d] eqn:Qc; auto. left. eapply reach_trans; [exact Rb|exact Hc|exact Hin|]. now constructor.
      - destruct Z as (rc' & Z). rewrite Z in Hc. injection Hc as <- <-. constructor.
      - pose proof (Lt _ _ _ Hc). lia. }
    assert (N : nin S True r). { unfold nin. destruct (n_kids r) as [?|d] eqn:Q; auto. left. now constructor. }
    assert (Fin : forall h1 n1, closed S True h1 /\ nin S True n1 -> fst st = h1 -> r' = n1 -> S a) by (intros h1 n1 [A B] <- ->; eapply closed_reach; eauto).
    assert (Q1 : forall m s1 m' s2, rtake i s = Some (m, s1) -> rput i m' s1 = Some s2 -> rget i s2 = Some r' -> m = r /\ r' = m').
    { intros m s1 m' s2 Qt Qp E. pose proof (take_get _ _ _ _ Qt). pose proof (rput_get _ _ _ _ Qp). split; congruence. }
    assert (W : forall (act : heap -> node -> node -> option (heap * node)) b, safe_rec S True act -> in_place act i b (h, s) = Some (st, l) -> S a).
    { intros act b Sa Hp. unfold in_place in Hp. destruct (rtake i s) as [[x s1]|] eqn:Qt; [|discriminate]. destruct (rget b s1) as [m|]; [|discriminate].
      destruct (act h x m) as [[h1 n1]|] eqn:Qa; [|discriminate]. destruct (rput i n1 s1) as [s2|] eqn:Qp; [|discriminate]. injection Hp as <- <-. cbn [fst snd] in *.
      destruct (Q1 _ _ _ _ eq_refl Qp Hr') as [-> ->]. apply (Fin h1 n1); auto. eapply Sa; eauto. }
    destruct o as [o|k v b|i' k v|i' p|i' p b|f i' b|f i' b|f i' b|f i' b|f i' b|f x b k|f x b k|f x b k|i' k|i'|x b|x b]; try discriminate; cbn [changes astep] in *; injection Ho as ->.
    - destruct (rtake i s) as [[x s1]|] eqn:Qt; [|discriminate]. unfold into_reg in Hs. destruct (h_insert kcmp strat arc F k v h x) as [[h1 n1]|] eqn:Qa; [|discriminate].
      destruct (rput i n1 s1) as [s2|] eqn:Qp; [|discriminate]. injection Hs as <- <-. cbn [fst snd] in *. destruct (Q1 _ _ _ _ eq_refl Qp Hr') as [-> ->]. apply (Fin h1 n1); auto.
      eapply safe_insert; eauto.
    - destruct (rtake i s) as [[x s1]|] eqn:Qt; [|discriminate]. unfold into_reg in Hs. destruct (h_prepend h x p) as [n1|] eqn:Qa; [|discriminate].
      destruct (rput i n1 s1) as [s2|] eqn:Qp; [|discriminate]. injection Hs as <- <-. cbn [fst snd] in *. destruct (Q1 _ _ _ _ eq_refl Qp Hr') as [-> ->]. apply (Fin h n1); auto. split; auto.
      eapply nin_prepend; eauto.
    - eapply W; [|exact Hs]. now apply safe_outer.
    - eapply W; [|exact Hs]. now apply safe_inner.
    - eapply W; [|exact Hs]. now apply safe_left.
    - eapply W; [|exact Hs]. now apply safe_remove.
    - eapply W; [|exact Hs]. now apply safe_retain_with.
  Qed.

  (** after any program, a call that changes a tree in place does not make it (or any other tree) share a vector of nodes with another tree, except the
      empty vector: what two trees share afterwards they shared before. *)
  Theorem C90_no_new_sharing (arc : bool) (n : nat) (os : list (api K V)) (o : api K V) vs out vs' l :
    changes o <> None -> prun kcmp strat os (repeat None n) = Some (vs, out) -> pstep kcmp strat o vs = Some (vs', l) ->
    exists F0, forall F, F0 <= F -> exists st st', arun kcmp strat arc F os (hinit n) = Some (st, out) /\ astep kcmp strat arc F o st = Some (st', l) /\
      forall i j a, i <> j -> shared st' i j a -> a = 0 \/ shared st i j a.
  Proof.
    intros Ho H Hp. destruct (arun_good kcmp strat arc os _ _ _ H) as (F0 & H0). exists (Nat.max F0 (2 * depth vs)). intros F HF.
    destruct (H0 F _ ltac:(lia) (init_good n)) as (st & Q & G). destruct (astep_good kcmp strat arc o vs vs' l Hp F st ltac:(lia) G) as (st' & Q' & G').
    exists st, st'. split; auto. split; auto. destruct (changes o) as [c|] eqn:Hc; [|easy]. destruct st as [h s]. pose proof G as (I & Ds & R). cbn [fst snd] in I, Ds, R.
    pose proof (changes_others arc o c vs vs' l F h s st' l Hc Hp ltac:(lia) G Q') as Oth.
    assert (Same : forall j m a, j <> c -> rget j (snd st') = Some m -> reach (fst st') m a -> rget j s = Some m /\ reach h m a).
    { intros j m a N Hj Ra. destruct (Oth j m N Hj) as [A B]. split; auto. eapply reach_frame; eauto. eapply inv_den_node; [exact I|]. right. eapply rget_nodes; eauto. }
    assert (Z : exists rc, h_cell h 0 = Some (rc, [])).
    { inversion Ds as [|? ? ? rc ns ts Q0 D0]; subst. inversion D0; subst. eauto. }
    assert (Live : forall j m a, rget j s = Some m -> reach h m a -> a < h_next h).
    { intros j m a Hj Ra. assert (D : exists t, den h m t) by (eapply inv_den_node; [exact I|]; right; eapply rget_nodes; eauto).
      clear - I D Ra. induction Ra as [m a Qa|m a rc ns x b Qa Hc Hx Ra IH]; destruct D as (t & D); destruct m as [p v k]; cbn in Qa; subst k; inversion D as [|? ? ? rc0 ns0 ts0 Q0 Ds]; subst.
      - eapply inv_lt; eauto.
      - apply IH. rewrite Hc in Q0. injection Q0 as <- <-. eapply dens_member; eauto. }
    assert (One : forall j a, j <> c -> shared st' c j a -> a = 0 \/ shared (h, s) c j a).
    { intros j a N (r' & q & Hr' & Hq & Rr & Rq). destruct (Same _ _ _ N Hq Rq) as [Hq0 Rq0].
      assert (Er : exists r, rget c s = Some r).
      { destruct o as [o|k v b|i' k v|i' p|i' p b|f i' b|f i' b|f i' b|f i' b|f i' b|f x b k|f x b k|f x b k|i' k|i'|x b|x b]; try discriminate; cbn [changes astep] in Hc, Q'; injection Hc as ->;
          unfold in_place in Q'; destruct (rtake c s) as [[m s1]|] eqn:Qt; try discriminate; exists m; eapply take_get; eauto. }
      destruct Er as (r & Hr). destruct (changes_within arc o c F h s r st' l r' a Hc Q') as [X|[X|X]]; auto.
      - intros b rc ns Hb. eapply inv_lt; eauto.
      - right. exists r, q. auto.
      - pose proof (Live _ _ _ Hq0 Rq0). lia. }
    intros i j a N Hs. destruct (Nat.eq_dec i c) as [->|Ni]; [apply One; auto|]. destruct (Nat.eq_dec j c) as [->|Nj].
    - destruct Hs as (r & q & A & B & Ra & Rb). destruct (One i a) as [X|(q' & r' & A' & B' & X & Y)]; auto; [exists q, r; auto|]. right. exists r', q'. auto.
    - destruct Hs as (r & q & A & B & Ra & Rb). destruct (Same _ _ _ Ni A Ra) as [? ?], (Same _ _ _ Nj B Rb) as [? ?]. right. exists r, q. auto.
  Qed.
End C90.

(** ** Concrete cases that meet the hypotheses *)
(** C89: 36 bindings below 6 inner nodes are saved (9 records), a snapshot is taken, and bindings are changed *)
Definition stock : list (dop nat nat) := map DUser (grow 6 ++ [ABase (OClone 0 1)]).
Definition later : list (api nat nat) :=
  [AInsert 0 [3; 4; 5] 99; ABase (OClone 0 2); AInsert 0 [3; 4; 6] 98; ARemoveWith (fun _ => true) 0 3; AGet 0 [3; 4; 5]].
Example stock_spec : settles (DFlush Written : dop nat nat) /\ forallb updates later = true /\
  match s_run N0 lin (DUser (ABase (OFrom true (Node [1] (Some 0) []) 3)) :: stock ++ [DFlush Written]) (s_init 3) with
  | Some (x1, _) => match s_run N0 lin (map DUser later) x1 with
    | Some (x2, out) => out = [GotValue (Some 99)] /\ exists t, rget 0 (fst x2) = Some t
    | None => False end
  | None => False end.
Proof. split; [left; now left|]. split; [reflexivity|]. vm_compute. eauto. Qed.
(** the changes create 7 vectors and 4 records are appended *)
Example stock_db : match whole 100 3 (DUser (ABase (OFrom true (Node [1] (Some 0) []) 3)) :: stock ++ [DFlush Written]) with
  | Some (b1, _) => match db_run N0 lin 100 (map DUser later) b1 with
    | Some (b2, _) => match db_flush 100 Written b2 with
      | Some b3 => (length (contents (d_main (b_disk b1))), h_next (fst (b_mem b2)) - h_next (fst (b_mem b1)),
                    length (contents (d_main (b_disk b3))) - length (contents (d_main (b_disk b1)))) = (9, 7, 4)
      | None => False end
    | None => False end
  | None => False end.
Proof. vm_compute. reflexivity. Qed.
(** C89_flush_after_inserts: 5 records of at most 10 *)
Example stock_inserts : Forall (dpublic (kcmp := N0)) stock /\
  match whole 100 3 (stock ++ [DFlush Written]) with
  | Some (b1, _) => match db_run N0 lin 100 (map DUser (inserts [([3; 4; 5], 99); ([2], 7)])) b1 with
    | Some (b2, _) => match db_flush 100 Written b2 with
      | Some b3 => length (contents (d_main (b_disk b3))) - length (contents (d_main (b_disk b2))) = 5 /\ room [([3; 4; 5], 99); ([2], 7)] + 2 = 10
      | None => False end
    | None => False end
  | None => False end.
Proof. split; [unfold stock, grow; cbn; repeat first [apply Forall_nil | apply Forall_cons; [exact Logic.I|]]|]. vm_compute. split; reflexivity. Qed.
(** C90: [0] is the tree, [1] a snapshot of it, [2] an argument that shares a subtree with neither. [0] and [1] share four vectors
    before the union and two after it; [0] and [2] share the empty vector only. A call that does not change a tree in place can share:
    filter_prefix of [0] in [3] shares with [0]. *)
Definition kin : list (api nat nat) :=
  [ABase (OEmpty 0); AInsert 0 [1; 2] 12; AInsert 0 [1; 3] 13; AInsert 0 [2; 2] 22; AInsert 0 [2; 3] 23; ABase (OClone 0 1); ABase (OEmpty 2); AInsert 2 [1; 4; 5] 1; AInsert 2 [1; 4; 6] 2; AInsert 2 [3] 3].
Definition join : api nat nat := AOuterWith (fun a b => (a + b, true)) 0 2.
Fixpoint vecs (F : nat) (h : heap nat nat) (n : node nat nat) : list nat :=
  match F, n_kids n with
  | S F, inr a => match h_cell h a with Some (_, ns) => a :: flat_map (vecs F h) ns | None => [a] end
  | _, _ => []
  end.
Definition both (st : state nat nat) (i j : nat) : list nat :=
  match rget i (snd st), rget j (snd st) with
  | Some r, Some q => filter (fun a => existsb (Nat.eqb a) (vecs 9 (fst st) q)) (nodup Nat.eq_dec (vecs 9 (fst st) r))
  | _, _ => []
  end.
Example kin_run : changes join = Some 0 /\
  match prun N0 lin kin (repeat None 4) with Some (vs, _) => pstep N0 lin join vs <> None | None => False end /\
  match arun N0 lin true 60 kin (hinit 4) with
  | Some (st, _) => match astep N0 lin true 60 join st, astep N0 lin true 60 (AFilter 0 [2] 3) st with
    | Some (st', _), Some (st'', _) => (both st 0 1, both st' 0 1, both st 0 2, both st' 0 2, both st'' 3 0) = ([3; 2; 4; 0], [4; 0], [0], [0], [4; 0])
    | _, _ => False end
  | None => False end.
Proof. vm_compute. split; [reflexivity|]. split; [discriminate|]. reflexivity. Qed.

Print Assumptions C89_flush_after_changes.
Print Assumptions C89_flush_after_inserts.
Print Assumptions C90_no_new_sharing.

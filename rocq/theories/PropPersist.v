(** Properties C77-C82: saving shared trees to an append-only file and loading them again (Serialize / Deserialize of
    ArcRadixTree and LazyRadixTree), and the database of examples/radix_db.rs built on it.

    [froot g t] (PersistSpec.v) says what a file means: it ends with a root, and following the pointers gives [t].
    [s_run] is the database on plain trees: no heap, no sharing, no registry, no positions. [F] is fuel for recursions:
    every sufficiently large F gives the same result. *)
From Coq Require Import Permutation.
From Verif Require Import PropRadix.
From Verif Require Export PersistShare.

Section C77.
  Context {K V : Type} (kcmp : K -> K -> comparison) (strat : nat -> nat -> bool) (arc : bool).
  Notation tree := (rtree K V).

  (** the heap of a new process *)
  Notation fresh := (fst (@hinit K V 0)).
  (** everything about one save from an empty registry followed by one load *)
  Lemma save_load F (h : heap K V) C n t : Inv h (n :: C) -> den h n t -> tsize t <= F ->
    exists h' n' w a R h2 dm n2 a2 p, ser_root F h n (MkS [] [] 0) = Some (h', n', w) /\ Inv h' (n' :: C) /\ (forall m u, den h m u -> den h' m u) /\
      den h' n' t /\ froot (s_out w) t /\ n_kids n' = inr a /\ NoDup R /\ (forall x, In x R <-> reach h' n' x) /\ length (s_out w) = S (length R) /\
      (forall x q, look (s_map w) x = Some q -> mirror h' (s_map w) (s_out w) x q) /\ NoDup (map snd (s_map w)) /\
      de_root F (s_out w) fresh = Some (h2, dm, n2) /\ den h2 n2 t /\ dmok (s_out w) h2 dm /\ n_kids n2 = inr a2 /\
      look (s_map w) a = Some p /\ In (p, a2) dm.
  Proof.
    intros I D HF. destruct (ser_root_ok F [] h C n t (MkS [] [] 0) I D HF) as (h' & n' & w' & h1 & w1 & a & p & Q & I1 & D1 & En & F1 & P01 & S & Lp & Ew & _); auto.
    { easy. }
    destruct (saved_once [] a _ h1 (MkS [] [] 0) h' w1 S eq_refl) as (R & N & HR & Ln & M & N2); [congruence|].
    destruct (ser_root_file [] h h1 h' (MkS [] [] 0) w1 a p t S) as (Fr & Va & Rg); auto; try easy.
    { now rewrite <- En. }
    rewrite <- Ew in Fr, Va, Rg. cbn [app] in *.
    assert (Em : s_map w' = s_map w1) by (now subst w').
    assert (Eo : s_out w' = s_out w1 ++ [RRoot (MkA (t_prefix t) (t_value t) (s_pos w1 - p))]) by (now subst w').
    pose proof (@init_good K V 0) as (I0 & Ds0 & _).
    assert (Dl : exists h2 dm a2, de_root F (s_out w') fresh = Some (h2, dm, MkN (t_prefix t) (t_value t) (inr a2)) /\ den h2 (MkN (t_prefix t) (t_value t) (inr a2)) t /\
      dmok (s_out w') h2 dm /\ In (p, a2) dm).
    { inversion Fr as [q v k us L0 Hn Hk Hle Fd]. subst t. cbn [t_prefix t_value] in *.
      assert (Lg : length (s_out w') - 1 = length (s_out w1)) by (rewrite Eo, app_length; cbn; lia).
      assert (Ek : k = s_pos w1 - p).
      { rewrite Lg, Eo, nth_error_app2 in Hn by lia. rewrite Nat.sub_diag in Hn. cbn in Hn. now injection Hn. }
      assert (Sp : s_pos w1 = length (s_out w1)).
      { unfold s_pos. rewrite (ss_base _ _ _ _ _ _ _ S). reflexivity. }
      pose proof (sstep_range _ _ _ _ _ _ _ S ltac:(easy) _ _ Lp) as Hp.
      simpl in HF. fold (tsizes us) in HF.
      destruct (de_ok F (s_out w') fresh [static] (length (s_out w') - 1 - k) us [] Fd ltac:(lia)) as (h2 & dm & a2 & Qd & I2 & X2 & _ & _ & Ok & Ina & _); auto.
      { constructor; cbn; try easy; constructor. }
      exists h2, dm, a2. unfold de_root, file_root. rewrite Hn. cbn [a_back a_prefix a_value].
      replace (k <=? length (s_out w') - 1) with true by (symmetry; apply Nat.leb_le; lia). rewrite Qd. split; [reflexivity|].
      split; [|split; auto].
      - destruct (dk_val _ _ _ Ok _ _ Ina) as (us' & Du & Fu). pose proof (proj1 (fden_fun _) _ _ Fd _ Fu) as <-. now apply pin_den.
      - replace p with (length (s_out w') - 1 - k) by lia. auto. }
    destruct Dl as (h2 & dm & a2 & Qd & D2 & Ok & Ina).
    exists h', n', w', a, R, h2, dm, (MkN (t_prefix t) (t_value t) (inr a2)), a2, p. split; auto. split; auto. split; [intros m u Hm; apply (ss_den _ _ _ _ _ _ _ S), P01, Hm|]. split; auto. split; auto.
    split; [now rewrite En|]. split; auto. split; [intros x; rewrite HR, En; symmetry; apply reach_pin|].
    split; [rewrite Eo, app_length, Ln; cbn; lia|]. split.
    { rewrite Em, Eo. intros x q Hx. rewrite <- (app_nil_l (s_out w1 ++ _)), app_assoc. eapply mirror_mono; [apply forced_refl| |eapply M; exact Hx]. auto. }
    split; [now rewrite Em|]. split; auto. split; auto. split; auto. split; auto. split; [now rewrite Em|auto].
  Qed.

  (** ** C77: saving and loading gives back the tree. For every program and every register: the tree is saved as a
      file that means it (nothing else in memory changes its value, also when lazy parts are materialised on the way), and
      a new process that loads the file has the tree. *)
  Theorem C77_save_load (n i : nat) (os : list (api K V)) (vs : regs tree) (out : list (obs K V)) (t : tree) :
    prun kcmp strat os (repeat None n) = Some (vs, out) -> rget i vs = Some t ->
    exists F0, forall F, F0 <= F -> exists st x h1 x1 w h2 dm x2,
      arun kcmp strat arc F os (hinit n) = Some (st, out) /\ rget i (snd st) = Some x /\
      ser_root F (fst st) x (MkS [] [] 0) = Some (h1, x1, w) /\ froot (s_out w) t /\
      (forall j y u, rget j (snd st) = Some y -> rget j vs = Some u -> den h1 y u) /\ den h1 x1 t /\
      de_root F (s_out w) fresh = Some (h2, dm, x2) /\ den h2 x2 t.
  Proof.
    intros H Ht. destruct (arun_good kcmp strat arc os _ _ _ H) as (F0 & H0). exists (Nat.max F0 (tsize t)). intros F Hf.
    destruct (H0 F _ ltac:(lia) (init_good n)) as ([h s] & Q & (I & Ds & R)). cbn [fst snd] in *.
    destruct (rget_rel h s vs i t R Ht) as (x & Qx & D & Hin). apply in_split in Hin as (s1 & s2 & E).
    destruct (save_load F h (static :: s1 ++ s2) x t) as (h' & n' & w & a & Rr & h2 & dm & n2 & a2 & p & Q1 & I1 & P1 & D1 & Fr & _ & _ & _ & _ & _ & _ & Q2 & D2 & _); auto; try lia.
    { eapply inv_perm; [|exact I]. rewrite E. rewrite perm_swap. apply perm_skip. symmetry. apply Permutation_middle. }
    exists (h, s), x, h', n', w, h2, dm, n2. cbn [fst snd]. split; auto. split; auto. split; auto. split; auto. split; [|split; [|split]; auto].
    intros j y u Hy Hu. apply P1. destruct (rget_rel h s vs j u R Hu) as (y' & Qy & Dy & _). congruence.
  Qed.
  (** the file is position independent: it can be put after anything, and whatever it meant before stays in its prefix *)
  Theorem C77_relocatable (x g : list (frec K V)) (t u : tree) : froot g t -> froot (x ++ g) t /\ (froot (x ++ g) u -> u = t).
  Proof. intros H. pose proof (froot_shift x g t H) as H1. split; auto. intros H2. eapply froot_fun; eauto. Qed.

  (** ** C78: every vector is written once, however often it is shared; and the loaded tree has the same sharing: two
      paths lead to one vector in memory after loading exactly if they did when the tree was saved. *)
  Theorem C78_written_once (n i : nat) (os : list (api K V)) (vs : regs tree) (out : list (obs K V)) (t : tree) :
    prun kcmp strat os (repeat None n) = Some (vs, out) -> rget i vs = Some t ->
    exists F0, forall F, F0 <= F -> exists st x h1 x1 w R,
      arun kcmp strat arc F os (hinit n) = Some (st, out) /\ rget i (snd st) = Some x /\
      ser_root F (fst st) x (MkS [] [] 0) = Some (h1, x1, w) /\
      NoDup R /\ (forall a, In a R <-> reach h1 x1 a) /\ length (s_out w) = S (length R).
  Proof.
    intros H Ht. destruct (arun_good kcmp strat arc os _ _ _ H) as (F0 & H0). exists (Nat.max F0 (tsize t)). intros F Hf.
    destruct (H0 F _ ltac:(lia) (init_good n)) as ([h s] & Q & (I & Ds & R)). cbn [fst snd] in *.
    destruct (rget_rel h s vs i t R Ht) as (x & Qx & D & Hin). apply in_split in Hin as (s1 & s2 & E).
    destruct (save_load F h (static :: s1 ++ s2) x t) as (h' & n' & w & a & Rr & h2 & dm & n2 & a2 & p & Q1 & I1 & P1 & D1 & Fr & _ & N & HR & Ln & _); auto; try lia.
    { eapply inv_perm; [|exact I]. rewrite E. rewrite perm_swap. apply perm_skip. symmetry. apply Permutation_middle. }
    exists (h, s), x, h', n', w, Rr. cbn [fst snd]. auto 10.
  Qed.
  Theorem C78_sharing_preserved (n i : nat) (os : list (api K V)) (vs : regs tree) (out : list (obs K V)) (t : tree) :
    prun kcmp strat os (repeat None n) = Some (vs, out) -> rget i vs = Some t ->
    exists F0, forall F, F0 <= F -> exists st x h1 x1 w h2 dm x2,
      arun kcmp strat arc F os (hinit n) = Some (st, out) /\ rget i (snd st) = Some x /\
      ser_root F (fst st) x (MkS [] [] 0) = Some (h1, x1, w) /\ de_root F (s_out w) fresh = Some (h2, dm, x2) /\
      forall p q u v, t_sub p t = Some u -> t_sub q t = Some v -> exists a b a' b',
        at_path h1 x1 p = Some a /\ at_path h1 x1 q = Some b /\ at_path h2 x2 p = Some a' /\ at_path h2 x2 q = Some b' /\ (a = b <-> a' = b').
  Proof.
    intros H Ht. destruct (arun_good kcmp strat arc os _ _ _ H) as (F0 & H0). exists (Nat.max F0 (tsize t)). intros F Hf.
    destruct (H0 F _ ltac:(lia) (init_good n)) as ([h s] & Q & (I & Ds & R)). cbn [fst snd] in *.
    destruct (rget_rel h s vs i t R Ht) as (x & Qx & D & Hin). apply in_split in Hin as (s1 & s2 & E).
    destruct (save_load F h (static :: s1 ++ s2) x t) as
      (h' & n' & w & a & Rr & h2 & dm & n2 & a2 & p & Q1 & I1 & P1 & D1 & Fr & Ka & N & HR & Ln & M & N2 & Q2 & D2 & Ok & Ka2 & La & Ina); auto; try lia.
    { eapply inv_perm; [|exact I]. rewrite E. rewrite perm_swap. apply perm_skip. symmetry. apply Permutation_middle. }
    exists (h, s), x, h', n', w, h2, dm, n2. cbn [fst snd]. split; auto. split; auto. split; auto. split; auto.
    assert (All : forall path u, t_sub path t = Some u -> exists b r b2, at_path h' n' path = Some b /\ at_path h2 n2 path = Some b2 /\ look (s_map w) b = Some r /\ In (r, b2) dm).
    { intros path u Hs. pose proof (path_sim (s_out w) h' (s_map w) h2 dm M (dk_mirror _ _ _ Ok) path a p a2 La Ina) as Sm.
      rewrite (at_path_kids h' n' (pin a)) by (now rewrite Ka). rewrite (at_path_kids h2 n2 (pin a2)) by (now rewrite Ka2).
      destruct (at_path h' (pin a) path) as [b|] eqn:Qp; [destruct Sm as (r & b2 & S1 & S2 & S3); exists b, r, b2; auto|]. exfalso.
      rewrite <- (at_path_kids h' n' (pin a)) in Qp by (now rewrite Ka). revert Qp. eapply path_some; eauto. intros c Hc.
      assert (Lc : look (s_map w) c <> None).
      { eapply reach_registered; [exact Hc|exact M|]. intros y Hy. rewrite Ka in Hy. injection Hy as <-. congruence. }
      destruct (look (s_map w) c) as [q|] eqn:Qc; [|easy]. destruct (M _ _ Qc) as (rc & ns & l & Hcell & _ & F2). exists rc, ns. split; auto.
      intros d Hd. destruct (Forall2_in _ _ _ _ F2 Hd) as (y & _ & (b & r & Kb & _)). eauto. }
    intros pa qa u v Hu Hv. destruct (All pa u Hu) as (b1 & r1 & c1 & B1 & C1 & L1 & J1). destruct (All qa v Hv) as (b2 & r2 & c2 & B2 & C2 & L2 & J2).
    exists b1, b2, c1, c2. split; auto. split; auto. split; auto. split; auto. split.
    - intros ->. rewrite L1 in L2. injection L2 as <-. exact (nodup_fst dm r1 c1 c2 (dk_fst _ _ _ Ok) J1 J2).
    - intros ->. assert (r1 = r2) by exact (nodup_snd dm c2 r1 r2 (dk_snd _ _ _ Ok) J1 J2). subst r2. exact (nodup_snd _ r1 b1 b2 N2 (look_in _ _ _ L1) (look_in _ _ _ L2)).
  Qed.
End C77.

Section C79.
  Context {K V : Type} (kcmp : K -> K -> comparison) (strat : nat -> nat -> bool).
  Notation tree := (rtree K V).
  Notation no_files := (MkD (K := K) (V := V) None None).

  Lemma init_bgood n : exists F0, forall F, F0 <= F -> exists b0, db_load F (S n) no_files = Some b0 /\ bgood b0 (fst (s_init (K := K) (V := V) n)) (snd (s_init (K := K) (V := V) n)).
  Proof.
    exists 1. intros F HF. destruct (load_good F n no_files (Node [] None [])) as (b0 & Q & G & _); [now left|cbn; lia|]. exists b0. auto.
  Qed.
  Lemma reached n os x out : s_run kcmp strat os (s_init n) = Some (x, out) ->
    exists F0, forall F, F0 <= F -> exists b0 b, db_load F (S n) no_files = Some b0 /\ db_run kcmp strat F os b0 = Some (b, out) /\ bgood b (fst x) (snd x).
  Proof.
    intros H. destruct (init_bgood n) as (F1 & H1). destruct (run_bgood kcmp strat os _ _ _ H) as (F2 & H2). exists (Nat.max F1 F2). intros F HF.
    destruct (H1 F ltac:(lia)) as (b0 & Q0 & G0). destruct (H2 F b0 ltac:(lia) G0) as (b & Qb & G). eauto.
  Qed.
  Lemma bgood_holds b vs od i t : bgood (K := K) (V := V) b vs od -> (holds_tree (b_mem b) i t <-> rget i vs = Some t).
  Proof.
    intros [I D R _ _ _ _]. split.
    - intros (n & Q & Dn). pose proof (rel_nth _ _ _ i R) as N. unfold rget in *. destruct (nth_error (snd (b_mem b)) i) as [[m|]|]; try discriminate.
      injection Q as ->. destruct (nth_error vs i) as [[u|]|]; try easy. cbn in N. now rewrite (proj1 (den_fun _) _ _ N _ Dn).
    - intros Q. destruct (rget_rel _ _ _ i t R Q) as (n & Qn & Dn & _). exists n. auto.
  Qed.

  (** ** C79: the registry that makes flushes incremental is right in every state of every history: a registered
      address is alive and holds exactly what the file has at the registered position (counted from the start of what
      this process knows: the file may have something before that). The library has to keep a share of every registered
      vector for that (all_arcs). *)
  Theorem C79_registry_right (n : nat) (os : list (dop K V)) x out : s_run kcmp strat os (s_init n) = Some (x, out) ->
    exists F0, forall F, F0 <= F -> exists b0 b, db_load F (S n) no_files = Some b0 /\ db_run kcmp strat F os b0 = Some (b, out) /\
      exists g0 g, contents (d_main (b_disk b)) = g0 ++ g /\ length g = b_pos b /\
        forall a p, look (b_map b) a = Some p -> exists rc ns ts, h_cell (fst (b_mem b)) a = Some (rc, ns) /\ 0 < rc /\ dens (fst (b_mem b)) ns ts /\ fden g p ts.
  Proof.
    intros H. destruct (reached n os x out H) as (F0 & H0). exists F0. intros F HF. destruct (H0 F HF) as (b0 & b & Q0 & Q & G). exists b0, b. split; auto. split; auto.
    destruct (bg_file _ _ _ G) as (X & L & Ef & EL & Va & _). exists X, L. split; auto. split; auto. intros a p Hp. destruct (Va _ _ Hp) as (ts & D & Fd).
    inversion D as [|? ? ? rc ns ? Ha Ds]; subst. exists rc, ns, ts. split; auto. split; auto.
    pose proof (inv_count _ _ (bg_inv _ _ _ G) a) as C. rewrite Ha in C. lia.
  Qed.
  (** a flush appends one root and the vectors that are not registered, each once; after it everything that can be reached
      from the tree is registered. So a flush that follows a flush appends one record. *)
  Theorem C79_flush_appends_new (n : nat) (os : list (dop K V)) x out t : s_run kcmp strat os (s_init n) = Some (x, out) -> rget 0 (fst x) = Some t ->
    exists F0, forall F, F0 <= F -> exists b0 b b', db_load F (S n) no_files = Some b0 /\ db_run kcmp strat F os b0 = Some (b, out) /\
      db_flush F Written b = Some b' /\
      exists e R r, contents (d_main (b_disk b')) = contents (d_main (b_disk b)) ++ e /\ length e = S (length R) /\ NoDup R /\
        rget 0 (snd (b_mem b')) = Some r /\
        (forall a, In a R -> reach (fst (b_mem b')) r a /\ look (b_map b) a = None) /\
        (forall a, look (b_map b') a <> None <-> In a R \/ look (b_map b) a <> None) /\
        (forall a, reach (fst (b_mem b')) r a -> look (b_map b') a <> None) /\
        exists b'' y, db_flush F Written b' = Some b'' /\ contents (d_main (b_disk b'')) = contents (d_main (b_disk b')) ++ [RRoot y].
  Proof.
    intros H Ht. destruct (reached n os x out H) as (F0 & H0). exists (Nat.max F0 (tsize t)). intros F HF.
    destruct (H0 F ltac:(lia)) as (b0 & b & Q0 & Q & G). exists b0, b.
    destruct (flush_one F b _ _ t G Ht ltac:(lia)) as (b' & e & R & r & a & Qf & G' & E1 & E2 & E3 & E4 & E5 & E6 & E7 & E8 & _ & Rt & _).
    exists b'. split; auto. split; auto. split; auto. exists e, R, r. split; auto. split; auto. split; auto. split; auto. split; auto. split; auto.
    split; [intros a0 Ha0; now apply (rooted_reach b' r Rt E4)|].
    destruct (flush_one F b' _ _ t G' Ht ltac:(lia)) as (b'' & e' & R' & r' & a' & Qf' & _ & A1 & A2 & _ & _ & _ & _ & _ & _ & (e0 & y & A3) & _ & A4 & _).
    exists b'', y. split; auto. rewrite (A4 r a E4 E7 E8) in A2. cbn in A2. subst e'. rewrite app_length in A2. destruct e0; [|cbn in A2; lia]. exact A1.
  Qed.

  (** ** C78, after any history: what the file has of the sharing does not depend on how many flushes wrote it. After a flush
      or a vacuum that returned, and a restart, two paths of the tree lead to one vector exactly if they did before. *)
  Definition saves (o : dop K V) : Prop := o = DFlush Written \/ o = DVacuum Written true.
  Lemma save_rooted F o b vs od t : saves o -> bgood b vs od -> rget 0 vs = Some t -> tsize t <= F ->
    exists b', db_step kcmp strat F o b = Some (b', []) /\ bgood b' vs (Some t) /\ rooted b'.
  Proof.
    intros [-> | ->] G Ht HF; cbn [db_step].
    - destruct (flush_good F Written b vs od t G Ht HF) as (b' & -> & G' & R). exists b'. auto.
    - destruct (vacuum_good F Written true b vs od t G Ht HF) as (b' & -> & G' & R). exists b'. auto.
  Qed.
  Lemma db_run_app F (os os' : list (dop K V)) : forall b b1 l1, db_run kcmp strat F os b = Some (b1, l1) -> forall b2 l2, db_run kcmp strat F os' b1 = Some (b2, l2) ->
    db_run kcmp strat F (os ++ os') b = Some (b2, l1 ++ l2).
  Proof.
    induction os as [|o os IH]; intros b b1 l1 H b2 l2 H'; cbn [db_run app] in *; [injection H as <- <-; auto|].
    destruct (db_step kcmp strat F o b) as [[b' l]|]; [|discriminate]. destruct (db_run kcmp strat F os b') as [[b'' l']|] eqn:Q; [|discriminate]. injection H as <- <-.
    rewrite (IH _ _ _ Q _ _ H'). now rewrite app_assoc.
  Qed.
  Theorem C78_sharing_history (n : nat) (os : list (dop K V)) (save : dop K V) x out t :
    s_run kcmp strat os (s_init n) = Some (x, out) -> rget 0 (fst x) = Some t -> saves save ->
    exists F0, forall F, F0 <= F -> exists b0 b1 b2 r1 r2, db_load F (S n) no_files = Some b0 /\
      db_run kcmp strat F (os ++ [save]) b0 = Some (b1, out) /\ db_run kcmp strat F [DRestart] b1 = Some (b2, []) /\
      rget 0 (snd (b_mem b1)) = Some r1 /\ rget 0 (snd (b_mem b2)) = Some r2 /\
      forall p q u v, t_sub p t = Some u -> t_sub q t = Some v -> exists a b a' b',
        at_path (fst (b_mem b1)) r1 p = Some a /\ at_path (fst (b_mem b1)) r1 q = Some b /\
        at_path (fst (b_mem b2)) r2 p = Some a' /\ at_path (fst (b_mem b2)) r2 q = Some b' /\ (a = b <-> a' = b').
  Proof.
    intros H Ht Hs. destruct (reached n os x out H) as (F0 & H0). exists (Nat.max F0 (tsize t)). intros F HF.
    destruct (H0 F ltac:(lia)) as (b0 & b & Q0 & Q & G). destruct (save_rooted F save b _ _ t Hs G Ht ltac:(lia)) as (b1 & Q1 & G1 & R1).
    pose proof (rel_len _ _ _ (bg_rel _ _ _ G1)) as Ln. assert (Sl : exists k, length (snd (b_mem b1)) = S k).
    { rewrite Ln. destruct (fst x); [discriminate|cbn; eauto]. }
    destruct Sl as (k & Sl). destruct (load_good F k (b_disk b1) t) as (b2 & Q2 & G2 & D2 & R2).
    { apply (bg_disk _ _ _ G1). reflexivity. }
    { lia. }
    assert (Rt2 : rooted b2).
    { destruct R2 as [R2|[E _]]; auto. destruct R1 as (X & L & r & a & p & q & v & E1 & _ & _ & _ & _ & Hp & _). rewrite E in E1. destruct X; [|discriminate]. destruct L; [cbn in Hp; lia|discriminate]. }
    destruct (rooted_same b1 b2 R1 Rt2 D2) as (r1 & r2 & Hr1 & Hr2 & Same). exists b0, b1, b2, r1, r2. split; auto. split; [|split; [|split; [auto|split; auto]]].
    - rewrite <- (app_nil_r out). eapply db_run_app; [exact Q|]. cbn [db_run]. now rewrite Q1.
    - cbn [db_run db_step]. rewrite Sl, Q2. reflexivity.
    - intros p q u v Hu Hv. destruct (rget_rel _ _ _ 0 t (bg_rel _ _ _ G1) Ht) as (r1' & E1 & D1 & _). rewrite Hr1 in E1. injection E1 as <-.
      pose proof (rooted_path b1 r1 t p u R1 Hr1 D1 Hu) as Pu. pose proof (rooted_path b1 r1 t q v R1 Hr1 D1 Hv) as Pv.
      destruct (at_path (fst (b_mem b1)) r1 p) as [a|] eqn:Qa; [|easy]. destruct (at_path (fst (b_mem b1)) r1 q) as [c|] eqn:Qc; [|easy].
      destruct (Same p q a c Qa Qc) as (a' & c' & A & B & E). exists a, c, a', c'. auto.
  Qed.

  (** ** C80: every history. Whatever the user does between flushes, vacuums, failing writes and restarts, the
      database does what the database on plain trees does; in particular a restart gives the tree of the last flush or vacuum
      that returned. *)
  Theorem C80_database (n : nat) (os : list (dop K V)) x out : s_run kcmp strat os (s_init n) = Some (x, out) ->
    exists F0, forall F, F0 <= F -> exists b0 b, db_load F (S n) no_files = Some b0 /\ db_run kcmp strat F os b0 = Some (b, out) /\
      (forall i t, holds_tree (b_mem b) i t <-> rget i (fst x) = Some t) /\
      (forall t, snd x = Some t -> readable (contents (d_main (b_disk b))) t).
  Proof.
    intros H. destruct (reached n os x out H) as (F0 & H0). exists F0. intros F HF. destruct (H0 F HF) as (b0 & b & Q0 & Q & G). exists b0, b. split; auto. split; auto.
    split; [intros i t; eapply bgood_holds; eauto|apply (bg_disk _ _ _ G)].
  Qed.
  (** nothing leaks: every live vector is the shared empty one, or in a tree of the user, or pinned for a registered one *)
  Theorem C80_no_leak (n : nat) (os : list (dop K V)) x out : s_run kcmp strat os (s_init n) = Some (x, out) ->
    exists F0, forall F, F0 <= F -> exists b0 b, db_load F (S n) no_files = Some b0 /\ db_run kcmp strat F os b0 = Some (b, out) /\
      forall a, h_cell (fst (b_mem b)) a <> None -> a = 0 \/ (exists i m, rget i (snd (b_mem b)) = Some m /\ reach (fst (b_mem b)) m a) \/
        (exists c, In c (b_arcs b) /\ reach (fst (b_mem b)) (pin c) a).
  Proof.
    intros H. destruct (reached n os x out H) as (F0 & H0). exists F0. intros F HF. destruct (H0 F HF) as (b0 & b & Q0 & Q & G). exists b0, b. split; auto. split; auto.
    intros a Ha. destruct (h_cell (fst (b_mem b)) a) as [[rc ns]|] eqn:Qa; [|congruence].
    destruct (live_reach _ _ (bg_inv _ _ _ G) a rc ns Qa) as (m & [<-|Hm] & R).
    - left. pose proof (bg_static _ _ _ G) as D. inversion R as [? ? Hk|? c rb nb m b' Hk Hb Hm R']; subst; [cbn in Hk; congruence|]. exfalso.
      cbn in Hk. injection Hk as <-. inversion D; subst. match goal with X : dens _ _ _ |- _ => inversion X; subst end.
      match goal with X : h_cell _ 0 = Some (_, []) |- _ => rewrite Hb in X; injection X as -> -> end. easy.
    - right. apply in_app_or in Hm as [Hm|Hm].
      + left. apply in_flat_map in Hm as (o & Hy & Ho). destruct o as [y|]; [|easy]. destruct Ho as [<-|[]]. apply In_nth_error in Hy as (i & Hi). exists i, y.
        split; auto. unfold rget. now rewrite Hi.
      + right. apply in_map_iff in Hm as (c & <- & Hc). eauto.
  Qed.

  Lemma s_run_app (os : list (dop K V)) : forall x y l, s_run kcmp strat os x = Some (y, l) ->
    forall os' z l', s_run kcmp strat os' y = Some (z, l') -> s_run kcmp strat (os ++ os') x = Some (z, l ++ l').
  Proof.
    induction os as [|o os IH]; intros x y l H os' z l' H'; cbn [s_run app] in *; [injection H as <- <-; auto|].
    destruct (s_step kcmp strat o x) as [[x1 l1]|]; [|discriminate]. destruct (s_run kcmp strat os x1) as [[x2 l2]|] eqn:Q; [|discriminate]. injection H as <- <-.
    rewrite (IH _ _ _ Q _ _ _ H'). now rewrite app_assoc.
  Qed.

  (** ** C81: crash points. Whatever becomes of a vacuum, a restart finds the tree that was on disk or the tree that was
      in memory, and finds the latter if vacuum returned. *)
  Theorem C81_vacuum_atomic (n : nat) (os : list (dop K V)) vs t0 out t (o : outcome K V) (moved : bool) :
    s_run kcmp strat os (s_init n) = Some ((vs, Some t0), out) -> rget 0 vs = Some t ->
    exists F0, forall F, F0 <= F -> exists b0 b u, db_load F (S n) no_files = Some b0 /\
      db_run kcmp strat F (os ++ [DVacuum o moved; DRestart]) b0 = Some (b, out) /\
      holds_tree (b_mem b) 0 u /\ (u = t0 \/ u = t) /\ (o = Written -> moved = true -> u = t).
  Proof.
    intros H Ht. set (u := match o, moved with Written, true => t | _, _ => t0 end).
    assert (E : exists vs', s_run kcmp strat (os ++ [DVacuum o moved; DRestart]) (s_init n) = Some ((vs', Some u), out) /\ rget 0 vs' = Some u).
    { destruct vs as [|v0 vs]; [discriminate|].
      exists (Some u :: map (fun _ => None) vs). split; [|reflexivity]. rewrite <- (app_nil_r out).
      apply (s_run_app _ _ _ _ H). unfold u. destruct o, moved; cbn [s_run s_step]; rewrite Ht; reflexivity. }
    destruct E as (vs' & E & Eu). destruct (reached n _ _ _ E) as (F0 & H0). exists F0. intros F HF. destruct (H0 F HF) as (b0 & b & Q0 & Q & G). exists b0, b, u.
    split; auto. split; auto. split; [eapply bgood_holds; eauto|]. split; [unfold u; destruct o, moved; auto|]. intros -> ->. reflexivity.
  Qed.
  (** a failed flush, whatever it left in the file, is repaired by the next one *)
  Theorem C81_flush_retry (n : nat) (os : list (dop K V)) vs od out t k junk :
    s_run kcmp strat os (s_init n) = Some ((vs, od), out) -> rget 0 vs = Some t ->
    exists F0, forall F, F0 <= F -> exists b0 b, db_load F (S n) no_files = Some b0 /\
      db_run kcmp strat F (os ++ [DFlush (Fails k junk); DFlush Written; DRestart]) b0 = Some (b, out) /\ holds_tree (b_mem b) 0 t.
  Proof.
    intros H Ht.
    assert (E : exists vs', s_run kcmp strat (os ++ [DFlush (Fails k junk); DFlush Written; DRestart]) (s_init n) = Some ((vs', Some t), out) /\ rget 0 vs' = Some t).
    { destruct vs as [|v0 vs]; [discriminate|].
      exists (Some t :: map (fun _ => None) vs). split; [|reflexivity]. rewrite <- (app_nil_r out).
      apply (s_run_app _ _ _ _ H). cbn [s_run s_step]. rewrite Ht. cbn [s_step]. rewrite Ht. reflexivity. }
    destruct E as (vs' & E & Eu). destruct (reached n _ _ _ E) as (F0 & H0). exists F0. intros F HF. destruct (H0 F HF) as (b0 & b & Q0 & Q & G). exists b0, b.
    split; auto. split; auto. eapply bgood_holds; eauto.
  Qed.
End C79.

(** ** C82: watch_prefix. Intended: every batch tells what has changed since the previous batch. The closure of scan never
    updates its state, so every batch is relative to the tree at the time of the call. *)
Section C82.
  Context {K V : Type} {kcmp : K -> K -> comparison} (L : OrdLaws kcmp) (E : OrdEq kcmp) (strat : nat -> nat -> bool).
  Notation tree := (rtree K V).
  (** what holds: the i-th batch is about the i-th tree that was sent and the tree at the time of the call *)
  Theorem C82_watch_partial (t0 : tree) (p : list K) (sent : list tree) i t : WO kcmp t0 -> nth_error sent i = Some t -> WO kcmp t ->
    exists b a r, nth_error (watch_prefix kcmp t0 p sent) i = Some b /\ batch_added kcmp strat b = Ok a /\ batch_removed kcmp strat b = Ok r /\
      (forall k v, has a k v <-> has t k v /\ starts_with k p /\ forall w, ~ has t0 k w) /\
      (forall k v, has r k v <-> has t0 k v /\ starts_with k p /\ forall w, ~ has t k w).
  Proof.
    intros W0 Hn Wt. exists (rt_filter_prefix kcmp t0 p, rt_filter_prefix kcmp t p).
    destruct (C54_filter_prefix L E t0 p W0) as (f0 & Q0 & X0 & _ & H0). destruct (C54_filter_prefix L E t p Wt) as (f1 & Q1 & X1 & _ & H1).
    destruct (C50_difference_with L E strat f1 f0 X1 X0) as (a & Qa & _ & _ & Ha). destruct (C50_difference_with L E strat f0 f1 X0 X1) as (r & Qr & _ & _ & Hr).
    exists a, r. split.
    { clear - Hn. revert i Hn. unfold watch_prefix. induction sent as [|x sent IH]; intros [|i] Hn; try discriminate; cbn in *; [now injection Hn as ->|auto]. }
    split; [unfold batch_added; rewrite Q0, Q1; exact Qa|]. split; [unfold batch_removed; rewrite Q0, Q1; exact Qr|]. split; intros k v.
    - rewrite Ha. rewrite H1. split.
      + intros [[A B] C]. split; auto. split; auto. intros w Hw. apply (C w). now apply H0.
      + intros (A & B & C). split; auto. intros w Hw. apply H0 in Hw. now apply (C w).
    - rewrite Hr. rewrite H0. split.
      + intros [[A B] C]. split; auto. split; auto. intros w Hw. apply (C w). now apply H1.
      + intros (A & B & C). split; auto. intros w Hw. apply H1 in Hw. now apply (C w).
  Qed.
End C82.

(** ** Refutations and concrete cases *)
Notation N0 := Nat.compare.
Definition lin : nat -> nat -> bool := fun _ _ => false.
Notation empty_disk := (MkD (K := nat) (V := nat) None None).
(** run a history from a new database with [n] further registers *)
Definition whole (F n : nat) (os : list (dop nat nat)) : option (db nat nat * list (obs nat nat)) :=
  match db_load F (S n) empty_disk with Some b0 => db_run N0 lin F os b0 | None => None end.

(** a tree with {[1;2]: 10, [1;3]: 20, [2]: 30} is flushed and changed; the next flush is torn after its first record *)
Definition torn : list (dop nat nat) :=
  [DUser (AInsert 0 [1; 2] 10); DUser (AInsert 0 [1; 3] 20); DUser (AInsert 0 [2] 30); DFlush Written; DUser (AInsert 0 [1; 2; 7] 40)].
(** C81: a flush is not atomic: torn after one record, neither the old nor the new tree can be loaded; a process that starts
    now fails (in the code it reads the end of that record as a root, unchecked) *)
Theorem C81_flush_atomic_refuted : exists b, whole 30 0 (torn ++ [DFlush (Fails 1 [])]) = Some (b, []) /\
  (forall u, ~ readable (contents (d_main (b_disk b))) u) /\ forall F n, db_load F n (b_disk b) = None.
Proof.
  eexists. split; [now vm_compute|]. split.
  - intros u [[A _]|A]; [discriminate|]. inversion A as [q v k us L0 Hn]. cbn in Hn. discriminate.
  - intros F n. reflexivity.
Qed.
(** C79: the pins are needed. Without them the insertion changes the root vector in place, at its registered address; the
    flush takes it for saved, and what is loaded is not what was in memory. *)
Definition unpinned (b : db nat nat) : option (db nat nat) :=
  match drop_all (fst (b_mem b)) (map pin (b_arcs b)) with
  | Some h => Some (MkDb (h, snd (b_mem b)) (b_disk b) (b_map b) [] (b_pos b))
  | None => None
  end.
Theorem C79_pins_needed : exists b b' b'', whole 30 0 (firstn 4 torn) = Some (b, []) /\ unpinned b = Some b' /\
  db_run N0 lin 30 [DUser (AInsert 0 [2] 31); DUser (AGet 0 [2]); DFlush Written; DRestart; DUser (AGet 0 [2])] b' = Some (b'', [GotValue (Some 31); GotValue (Some 30)]) /\
  exists b''', db_run N0 lin 30 [DUser (AInsert 0 [2] 31); DUser (AGet 0 [2]); DFlush Written; DRestart; DUser (AGet 0 [2])] b = Some (b''', [GotValue (Some 31); GotValue (Some 31)]).
Proof. do 3 eexists. split; [now vm_compute|]. split; [now vm_compute|]. split; [now vm_compute|]. eexists. now vm_compute. Qed.
(** C82: intended: added() of the second batch is what the second tree has and the first one sent has not *)
Theorem C82_watch_refuted : exists (t0 t1 t2 : rtree nat nat) b a, WO N0 t0 /\ WO N0 t1 /\ WO N0 t2 /\
  nth_error (watch_prefix N0 t0 [] [t1; t2]) 1 = Some b /\ batch_added N0 lin b = Ok a /\ has a [1] 5 /\ has t1 [1] 5 /\ has t2 [1] 5.
Proof.
  exists (Node [] None []), (rt_single [1] 5), (rt_single [1] 5). do 2 eexists.
  assert (W : WO N0 (rt_single [1] 5)) by (cbn; repeat split; try constructor; discriminate).
  split; [cbn; repeat split; try constructor; discriminate|]. split; [exact W|]. split; [exact W|]. split; [now vm_compute|]. split; [now vm_compute|].
  repeat split; repeat constructor.
Qed.

(** C77, C78: a tree that contains the vector of {[2]: 5, [3]: 6} twice, and the shared empty vector many times *)
Definition twice : list (api nat nat) :=
  [ABase (OEmpty 0); AInsert 0 [2] 5; AInsert 0 [3] 6; ABase (OClone 0 1); APrepend 0 [7]; APrepend 1 [8]; ABase (ONew [] None [0; 1] 2); AIter 2].
Example twice_plain : match prun N0 lin twice (repeat None 3) with Some (vs, out) => rget 2 vs <> None /\ out = [GotPairs [([7; 2], 5); ([7; 3], 6); ([8; 2], 5); ([8; 3], 6)]] | None => False end.
Proof. vm_compute. split; [discriminate|reflexivity]. Qed.
(** three vectors and a root are written although the tree has seven nodes; after loading the paths 0 and 1 share again *)
Example twice_saved : match arun N0 lin true 30 twice (hinit 3) with
  | Some ((h, [None; None; Some x]), _) =>
      match ser_root 30 h x (MkS [] [] 0) with
      | Some (h1, x1, w) => length (s_out w) = 4 /\ at_path h1 x1 [0] = at_path h1 x1 [1] /\ at_path h1 x1 [0; 1] = at_path h1 x1 [1; 0] /\
          match de_root 30 (s_out w) (fst (@hinit nat nat 0)) with
          | Some (h2, _, x2) => at_path h2 x2 [0] = at_path h2 x2 [1] /\ at_path h2 x2 [0] <> at_path h2 x2 [] /\ at_path h2 x2 [] <> None
          | None => False
          end
      | None => False
      end
  | _ => False
  end.
Proof. vm_compute. repeat split; discriminate. Qed.
(** C78_sharing_history: the twice used vector is written by one flush, its second use by another; they share after the restart *)
Definition twice_db : list (dop nat nat) :=
  [DUser (AInsert 0 [2] 5); DUser (AInsert 0 [3] 6); DUser (APrepend 0 [7]); DFlush Written; DUser (ABase (OClone 0 1)); DUser (APrepend 1 [8]); DUser (ABase (OMove 0 2));
   DUser (ABase (ONew [] None [2; 1] 0))].
Example twice_history : match whole 40 2 (twice_db ++ [DFlush Written]) with
  | Some (b1, _) => match db_run N0 lin 40 [DRestart] b1 with
    | Some (b2, _) => match rget 0 (snd (b_mem b1)), rget 0 (snd (b_mem b2)) with
      | Some r1, Some r2 => at_path (fst (b_mem b1)) r1 [0] = at_path (fst (b_mem b1)) r1 [1] /\ at_path (fst (b_mem b2)) r2 [0] = at_path (fst (b_mem b2)) r2 [1] /\
          at_path (fst (b_mem b2)) r2 [0] <> None /\ at_path (fst (b_mem b2)) r2 [0] <> at_path (fst (b_mem b2)) r2 [] /\ length (contents (d_main (b_disk b1))) = 5
      | _, _ => False end
    | None => False end
  | None => False end.
Proof. vm_compute. repeat split; discriminate. Qed.
(** C77 for LazyRadixTree: saving materialises what an archived tree has not materialised yet *)
Example lazy_saved : match arun N0 lin false 30 [ABase (OArchive (Node [] None [Node [1] (Some 7) [Node [2] (Some 8) []]; Node [4] (Some 9) []]) 0)] (hinit 1) with
  | Some ((h, [Some x]), _) => at_path h x [] = None /\
      match ser_root 30 h x (MkS [] [] 0) with
      | Some (h1, x1, w) => length (s_out w) = 5 /\ at_path h1 x1 [0; 0] <> None /\ de_root 30 (s_out w) (fst (@hinit nat nat 0)) <> None
      | None => False
      end
  | _ => False
  end.
Proof. vm_compute. repeat split; discriminate. Qed.

(** C79-C81: everything can happen: snapshots, flushes, a vacuum that fails, a torn flush, a vacuum, restarts *)
Definition life : list (dop nat nat) :=
  torn ++ [DFlush Written; DUser (ABase (OClone 0 1)); DUser (AInsert 0 [2] 31); DVacuum (Fails 2 []) false; DFlush (Fails 3 [RVec []]);
    DUser (AInsert 1 [9] 90); DFlush Written; DUser (AInsert 0 [5] 50); DRestart; DUser (AIter 0); DUser (AInsert 0 [2; 2] 22); DVacuum Written true;
    DUser (AInsert 0 [6] 60); DFlush (Fails 0 []); DRestart; DUser (AIter 0)].
Definition life_out : list (obs nat nat) :=
  [GotPairs [([1; 2], 10); ([1; 2; 7], 40); ([1; 3], 20); ([2], 31)];
   GotPairs [([1; 2], 10); ([1; 2; 7], 40); ([1; 3], 20); ([2], 31); ([2; 2], 22)]].
Example life_spec : match s_run N0 lin life (s_init 1) with Some ((vs, Some t), out) => rget 0 vs = Some t /\ out = life_out | _ => False end.
Proof. vm_compute. auto. Qed.
Example life_db : match whole 40 1 life with Some (_, out) => out = life_out | None => False end.
Proof. now vm_compute. Qed.
(** a second flush appends the root only; after one insertion only the vectors on the path are written again *)
Example incremental : exists b1 b2 b3, whole 30 0 (firstn 4 torn) = Some (b1, []) /\ db_run N0 lin 30 [DFlush Written] b1 = Some (b2, []) /\
  db_run N0 lin 30 [DUser (AInsert 0 [1; 2; 7] 40); DFlush Written] b2 = Some (b3, []) /\
  length (contents (d_main (b_disk b1))) = 4 /\ length (contents (d_main (b_disk b2))) = 5 /\ length (contents (d_main (b_disk b3))) = 9.
Proof. do 3 eexists. split; [now vm_compute|]. split; [now vm_compute|]. split; [now vm_compute|]. now vm_compute. Qed.
(** C81_vacuum_atomic, C81_flush_retry: their hypotheses hold after [torn] *)
Example torn_spec : match s_run N0 lin torn (s_init 0) with Some ((vs, Some t0), _) => exists t, rget 0 vs = Some t /\ t <> t0 | _ => False end.
Proof. vm_compute. eexists. split; [reflexivity|discriminate]. Qed.
(** C82_watch_partial *)
Example watched : exists b a, nth_error (watch_prefix N0 (rt_single [1; 2] 5) [1] [rt_single [1; 3] 6]) 0 = Some b /\ batch_added N0 lin b = Ok a /\ has a [1; 3] 6.
Proof. do 2 eexists. split; [now vm_compute|]. split; [now vm_compute|]. constructor. Qed.

Print Assumptions C77_save_load.
Print Assumptions C77_relocatable.
Print Assumptions C78_written_once.
Print Assumptions C78_sharing_preserved.
Print Assumptions C78_sharing_history.
Print Assumptions C79_registry_right.
Print Assumptions C79_flush_appends_new.
Print Assumptions C79_pins_needed.
Print Assumptions C80_database.
Print Assumptions C80_no_leak.
Print Assumptions C81_vacuum_atomic.
Print Assumptions C81_flush_retry.
Print Assumptions C81_flush_atomic_refuted.
Print Assumptions C82_watch_partial.
Print Assumptions C82_watch_refuted.

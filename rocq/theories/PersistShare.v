(** Saving writes every vector once, and loading what has been saved gives the same sharing. *)
From Verif Require Export PersistRefine.

Section PersistShare.
  Context {K V : Type}.
  Notation tree := (rtree K V).
  Notation node := (node K V).
  Notation heap := (heap K V).
  Notation frec := (frec K V).
  Notation ser := (ser K V).
  Implicit Types (h : heap) (g L : list frec) (w : ser) (dm : list (nat * nat)).

  (** registered vectors whose records mirror them: everything below is registered *)
  Lemma reach_registered h m g n b : reach h n b -> (forall a q, look m a = Some q -> mirror h m g a q) ->
    (forall a, n_kids n = inr a -> look m a <> None) -> look m b <> None.
  Proof.
    intros R M. induction R as [n a Q|n a rc ns c b Q Ha Hc R IH]; intros H; [auto|].
    apply IH. intros a' Q'. specialize (H a Q). destruct (look m a) as [q|] eqn:Qa; [|easy].
    destruct (M _ _ Qa) as (rc' & ns' & l & Ha' & _ & F). rewrite Ha in Ha'. injection Ha' as <- <-.
    destruct (Forall2_in _ _ _ _ F Hc) as (x & _ & (b' & q' & Qb & Lb & _)). rewrite Q' in Qb. injection Qb as <-. congruence.
  Qed.

  (** the counts: from an empty registry, and from any *)
  Lemma saved_once L a B h w h' w1 : sstep L a B h w h' w1 -> s_map w = [] -> look (s_map w1) a <> None ->
    exists R, NoDup R /\ (forall x, In x R <-> reach h' (pin a) x) /\ length (s_out w1) = length (s_out w) + length R /\
      (forall x q, look (s_map w1) x = Some q -> mirror h' (s_map w1) (L ++ s_out w1) x q) /\ NoDup (map snd (s_map w1)).
  Proof.
    intros [_ _ _ _ (n & Em & Ln & N1 & N2 & A)] E0 La. rewrite E0, app_nil_r in Em. subst n.
    assert (M : forall x q, look (s_map w1) x = Some q -> mirror h' (s_map w1) (L ++ s_out w1) x q).
    { intros x q Hx. apply look_in in Hx. now apply A in Hx. }
    exists (map fst (s_map w1)). split; auto. split; [|split; [rewrite map_length; lia|split; auto]].
    intros x. split.
    - intros Hx. apply in_map_iff in Hx as ([y q] & E & Hx). cbn in E. subst y. now apply A in Hx.
    - intros Hr. destruct (look (s_map w1) x) as [q|] eqn:Q.
      + apply look_in in Q. change x with (fst (x, q)). now apply in_map.
      + exfalso. eapply reach_registered; eauto. intros y [= <-]. exact La.
  Qed.
  (** with a registry: only what is new, and all of it that is reached through what is new *)
  Lemma saved_new L a B h w h' w1 : sstep L a B h w h' w1 ->
    exists R, NoDup R /\ (forall x, In x R -> reach h' (pin a) x /\ look (s_map w) x = None) /\ length (s_out w1) = length (s_out w) + length R /\
      (forall x, look (s_map w1) x <> None <-> In x R \/ look (s_map w) x <> None).
  Proof.
    intros [_ _ _ _ (n & Em & Ln & N1 & N2 & A)]. exists (map fst n). split; auto. split; [|split; [rewrite map_length; lia|]].
    - intros x Hx. apply in_map_iff in Hx as ([y q] & E & Hx). cbn in E. subst y. apply A in Hx. intuition.
    - intros x. rewrite Em, look_app. split.
      + intros H. destruct (look n x) as [q|] eqn:Q; [left|auto]. apply look_in in Q. change x with (fst (x, q)). now apply in_map.
      + intros [H|H].
        * apply in_map_iff in H as ([y q] & E & H). cbn in E. subst y. apply in_look in H. now destruct (look n x).
        * now destruct (look n x).
  Qed.

  (** ** Paths *)
  Lemma nth_Forall2 {X Y} (R : X -> Y -> Prop) l l' i x : Forall2 R l l' -> nth_error l i = Some x -> exists y, nth_error l' i = Some y /\ R x y.
  Proof. intros F. revert i. induction F; intros [|i] Hi; try discriminate; cbn in *; [injection Hi as ->; eauto|auto]. Qed.
  Lemma nth_Forall2' {X Y} (R : X -> Y -> Prop) l l' i y : Forall2 R l l' -> nth_error l' i = Some y -> exists x, nth_error l i = Some x /\ R x y.
  Proof. intros F. revert i. induction F; intros [|i] Hi; try discriminate; cbn in *; [injection Hi as ->; eauto|auto]. Qed.
  Lemma at_path_kids h n n' path : n_kids n = n_kids n' -> at_path h n path = at_path h n' path.
  Proof. intros E. destruct path; cbn; now rewrite E. Qed.
  Lemma path_sim g h m h2 dm : (forall a q, look m a = Some q -> mirror h m g a q) -> (forall q x, In (q, x) dm -> dmirror g h2 dm q x) ->
    forall path a q a2, look m a = Some q -> In (q, a2) dm ->
      match at_path h (pin a) path with
      | Some b => exists r b2, at_path h2 (pin a2) path = Some b2 /\ look m b = Some r /\ In (r, b2) dm
      | None => at_path h2 (pin a2) path = None
      end.
  Proof.
    intros M D. induction path as [|i path IH]; intros a q a2 La Ia; cbn [at_path pin n_kids]; [eauto|].
    destruct (M _ _ La) as (rc & ns & l & Ha & Hq & F). destruct (D _ _ Ia) as (rc2 & ns2 & l2 & Ha2 & Hq2 & F2).
    rewrite Hq in Hq2. injection Hq2 as <-. rewrite Ha, Ha2. destruct (nth_error ns i) as [c|] eqn:Qc.
    - destruct (nth_Forall2 _ _ _ _ _ F Qc) as (x & Qx & (b & q' & Qb & Lb & Hlt & ->)).
      destruct (nth_Forall2' _ _ _ _ _ F2 Qx) as (c2 & -> & (b2 & -> & _ & _ & Ib)). cbn [a_back] in Ib. replace (q - (q - q')) with q' in Ib by lia.
      specialize (IH b q' b2 Lb Ib). rewrite (at_path_kids h c (pin b)) by auto.
      rewrite (at_path_kids h2 _ (pin b2)) by reflexivity. auto.
    - destruct (nth_error ns2 i) as [c2|] eqn:Q2; auto. destruct (nth_Forall2 _ _ _ _ _ F2 Q2) as (x & Qx & _).
      destruct (nth_Forall2' _ _ _ _ _ F Qx) as (c & Qc' & _). congruence.
  Qed.
  (** a path of the tree is a path of the heap *)
  Lemma path_some h : forall path n t u, den h n t -> t_sub path t = Some u -> (forall a, reach h n a -> exists rc ns, h_cell h a = Some (rc, ns) /\ forall c, In c ns -> exists b, n_kids c = inr b) ->
    (exists a, n_kids n = inr a) -> at_path h n path <> None.
  Proof.
    induction path as [|i path IH]; intros n t u D S A (a & Q); cbn [at_path]; rewrite Q; [easy|].
    destruct n as [p v k]. cbn in Q. subst k. inversion D as [|? ? ? rc ns ts Ha Ds]; subst. rewrite Ha. cbn [t_sub t_children] in S.
    pose proof (dens_nth h ns ts i Ds) as N. destruct (nth_error ts i) as [t'|] eqn:Qt; [|discriminate].
    destruct (nth_error ns i) as [c|] eqn:Qc; [|easy]. pose proof (nth_error_In _ _ Qc) as Hc. eapply IH; eauto.
    - intros b Hb. apply A. eapply reach_below; eauto. reflexivity.
    - destruct (A a) as (rc' & ns' & Ha' & Hk); [now constructor|]. rewrite Ha in Ha'. injection Ha' as <- <-. auto.
  Qed.
  (** ** Two processes that know the same file *)
  Definition shift (d : nat) (m : list (nat * nat)) := map (fun e => (fst e, d + snd e)) m.
  Lemma look_shift d m a : look (shift d m) a = match look m a with Some p => Some (d + p) | None => None end.
  Proof. induction m as [|[x y] m IH]; cbn; auto. destruct (x =? a); auto. Qed.
  Lemma mirrored_shift h m X L : mirrored h m L -> mirrored h (shift (length X) m) (X ++ L).
  Proof.
    intros [M J]. split.
    - intros a p Hp. rewrite look_shift in Hp. destruct (look m a) as [q|] eqn:Q; [|discriminate]. injection Hp as <-.
      destruct (M _ _ Q) as (rc & ns & l & Ha & Hl & F). exists rc, ns, l. split; auto. split.
      + rewrite nth_error_app2 by lia. now replace (length X + q - length X) with q by lia.
      + eapply Forall2_imp; [|exact F]. intros c x (b & r & Kb & Lb & Hlt & ->). exists b, (length X + r). split; auto. rewrite look_shift, Lb. split; auto. split; [lia|].
        f_equal. lia.
    - intros a b p Ha Hb. rewrite look_shift in Ha, Hb. destruct (look m a) as [q|] eqn:Q; [|discriminate]. destruct (look m b) as [r|] eqn:R; [|discriminate].
      injection Ha as <-. injection Hb as Hb. assert (q = r) by lia. subst r. eauto.
  Qed.
  Lemma path_same g h m h2 m2 : mirrored h m g -> mirrored h2 m2 g -> forall path a q a2, look m a = Some q -> look m2 a2 = Some q ->
    match at_path h (pin a) path with
    | Some b => exists r b2, at_path h2 (pin a2) path = Some b2 /\ look m b = Some r /\ look m2 b2 = Some r
    | None => at_path h2 (pin a2) path = None
    end.
  Proof.
    intros [M _] [D _]. induction path as [|i path IH]; intros a q a2 La Ia; cbn [at_path pin n_kids]; [eauto|].
    destruct (M _ _ La) as (rc & ns & l & Ha & Hq & F). destruct (D _ _ Ia) as (rc2 & ns2 & l2 & Ha2 & Hq2 & F2).
    rewrite Hq in Hq2. injection Hq2 as <-. rewrite Ha, Ha2. destruct (nth_error ns i) as [c|] eqn:Qc.
    - destruct (nth_Forall2 _ _ _ _ _ F Qc) as (x & Qx & (b & q' & Qb & Lb & Hlt & ->)).
      destruct (nth_Forall2' _ _ _ _ _ F2 Qx) as (c2 & -> & (b2 & q2 & Qb2 & Lb2 & Hlt2 & E)). injection E as _ _ E. assert (q2 = q') by lia. subst q2.
      specialize (IH b q' b2 Lb Lb2). rewrite (at_path_kids h c (pin b)) by auto. rewrite (at_path_kids h2 c2 (pin b2)) by auto. auto.
    - destruct (nth_error ns2 i) as [c2|] eqn:Q2; auto. destruct (nth_Forall2 _ _ _ _ _ F2 Q2) as (x & Qx & _).
      destruct (nth_Forall2' _ _ _ _ _ F Qx) as (c & Qc' & _). congruence.
  Qed.
  Lemma rooted_full (b : db K V) : rooted b -> exists m g r a p q v, mirrored (fst (b_mem b)) m g /\ contents (d_main (b_disk b)) = g /\
    rget 0 (snd (b_mem b)) = Some r /\ n_kids r = inr a /\ look m a = Some p /\ p < length g /\ nth_error g (length g - 1) = Some (RRoot (MkA q v (length g - 1 - p))).
  Proof.
    intros (X & L & r & a & p & q & v & E & M & Hr & Ka & La & Hp & Hn). exists (shift (length X) (b_map b)), (X ++ L), r, a, (length X + p), q, v.
    split; [now apply mirrored_shift|]. split; auto. split; auto. split; auto. split; [now rewrite look_shift, La|]. rewrite app_length. split; [lia|].
    rewrite nth_error_app2 by lia. replace (length X + length L - 1 - length X) with (length L - 1) by lia. rewrite Hn. do 3 f_equal. lia.
  Qed.
  Lemma rooted_same (b b2 : db K V) : rooted b -> rooted b2 -> b_disk b2 = b_disk b -> exists r r2, rget 0 (snd (b_mem b)) = Some r /\ rget 0 (snd (b_mem b2)) = Some r2 /\
    forall p q u v, at_path (fst (b_mem b)) r p = Some u -> at_path (fst (b_mem b)) r q = Some v -> exists u2 v2,
      at_path (fst (b_mem b2)) r2 p = Some u2 /\ at_path (fst (b_mem b2)) r2 q = Some v2 /\ (u = v <-> u2 = v2).
  Proof.
    intros R R2 Ed. destruct (rooted_full b R) as (m & g & r & a & p & q & v & M & Eg & Hr & Ka & La & Hp & Hn).
    destruct (rooted_full b2 R2) as (m2 & g2 & r2 & a2 & p2 & q2 & v2 & M2 & Eg2 & Hr2 & Ka2 & La2 & Hp2 & Hn2).
    rewrite Ed, Eg in Eg2. subst g2. rewrite Hn in Hn2. injection Hn2 as <- <- Ep. assert (p2 = p) by lia. subst p2.
    exists r, r2. split; auto. split; auto. intros p1 p2 x y Hx Hy.
    pose proof (path_same g _ m _ m2 M M2 p1 a p a2 La La2) as S1. pose proof (path_same g _ m _ m2 M M2 p2 a p a2 La La2) as S2.
    rewrite (at_path_kids _ r (pin a)) in Hx, Hy by auto. rewrite Hx in S1. rewrite Hy in S2.
    destruct S1 as (r1 & u2 & A1 & B1 & C1). destruct S2 as (r3 & w2 & A2 & B2 & C2). exists u2, w2. rewrite !(at_path_kids _ r2 (pin a2)) by auto.
    split; auto. split; auto. split.
    - intros ->. rewrite B1 in B2. injection B2 as <-. destruct M2 as [_ J]. eauto.
    - intros ->. rewrite C1 in C2. injection C2 as <-. destruct M as [_ J]. eauto.
  Qed.
  (** every path of the tree leads to a registered vector *)
  Lemma rooted_reach (b : db K V) r : rooted b -> rget 0 (snd (b_mem b)) = Some r -> forall a, reach (fst (b_mem b)) r a ->
    look (b_map b) a <> None /\ exists rc ns, h_cell (fst (b_mem b)) a = Some (rc, ns) /\ forall c, In c ns -> exists b, n_kids c = inr b.
  Proof.
    intros (X & L & r' & a & p & q & v & E & [M J] & Hr' & Ka & La & Hp & Hn) Hr c Hc. rewrite Hr in Hr'. injection Hr' as <-.
    assert (Lc : look (b_map b) c <> None).
    { eapply reach_registered; [exact Hc|exact M|]. intros y Hy. rewrite Ka in Hy. injection Hy as <-. congruence. }
    split; auto. destruct (look (b_map b) c) as [qc|] eqn:Qc; [|easy]. pose proof (M _ _ Qc) as Mi. destruct (M _ _ Qc) as (rc & ns & l & Hcell & _). exists rc, ns. split; auto.
    intros d Hd. destruct (mirror_kids _ _ _ _ _ _ _ Mi Hcell d Hd) as (y & Hy & _). eauto.
  Qed.
  Lemma rooted_path (b : db K V) r t path u : rooted b -> rget 0 (snd (b_mem b)) = Some r -> den (fst (b_mem b)) r t -> t_sub path t = Some u -> at_path (fst (b_mem b)) r path <> None.
  Proof.
    intros R Hr D S. eapply path_some; eauto.
    - intros a Ha. now apply (rooted_reach b r R Hr).
    - destruct R as (X & L & r' & a & p & q & v & E & _ & Hr' & Ka & _). rewrite Hr in Hr'. injection Hr' as <-. eauto.
  Qed.
  (** one flush *)
  Lemma flush_one F (b : db K V) vs od t : bgood b vs od -> rget 0 vs = Some t -> tsize t <= F ->
    exists b' e R r a, db_flush F Written b = Some b' /\ bgood b' vs (Some t) /\
      contents (d_main (b_disk b')) = contents (d_main (b_disk b)) ++ e /\ length e = S (length R) /\ NoDup R /\ rget 0 (snd (b_mem b')) = Some r /\
      (forall a, In a R -> reach (fst (b_mem b')) r a /\ look (b_map b) a = None) /\
      (forall a, look (b_map b') a <> None <-> In a R \/ look (b_map b) a <> None) /\ n_kids r = inr a /\ look (b_map b') a <> None /\
      (exists e' y, e = e' ++ [RRoot y]) /\ rooted b' /\
      (forall r0 a0, rget 0 (snd (b_mem b)) = Some r0 -> n_kids r0 = inr a0 -> look (b_map b) a0 <> None -> R = []) /\
      (forall r0 a0, rget 0 (snd (b_mem b)) = Some r0 -> n_kids r0 = inr a0 -> a = a0) /\
      (forall x rc ns, h_cell (fst (b_mem b)) x = Some (rc, ns) -> exists rc' ns', h_cell (fst (b_mem b')) x = Some (rc', ns') /\ Forall2 fslot ns ns').
  Proof.
    intros G Ht HF. destruct (flush_good F Written b vs od t G Ht ltac:(lia)) as (b' & Qf & G' & Rt).
    destruct G as [I Ds R Dm Rg (X & L & Ef & EL & Va & _) Dk]. destruct b as [[h s] d m P pos]. cbn [b_mem b_disk b_map b_arcs b_pos fst snd] in *.
    pose proof Qf as Qf0. unfold db_flush in Qf. cbn [b_mem b_disk b_map b_arcs b_pos fst snd] in Qf.
    assert (Qt : rtake 0 vs = Some (t, upd_nth 0 None vs)) by (unfold rtake; now rewrite Ht).
    destruct (rtake_rel h s vs 0 t _ R Qt) as (n & s1 & Qn & D & R1 & P1). rewrite Qn in Qf.
    destruct (ser_root_ok F L h (static :: nodes_of s1 ++ map pin P) n t (MkS m [] pos)) as
      (h' & n' & w' & h1 & w1 & a & p & Qs & I1 & D1 & En & F1 & P01 & S & Lp & Ew & Same); auto; try lia.
    { eapply inv_perm; [|exact I]. rewrite P1. apply perm_swap. }
    { intros y q Hy. specialize (Rg _ _ Hy). unfold s_pos. cbn. lia. }
    rewrite Qs in Qf.
    destruct (all_arcs_ok F h' (static :: n' :: nodes_of s1) P n' t) as (h2 & P2 & Q2 & I2 & X2 & U2 & R2); auto; try lia.
    { eapply inv_perm; [|exact I1]. cbn. apply perm_swap. }
    { left. right. now left. }
    rewrite Q2 in Qf. destruct (rput 0 n' s1) as [s2|] eqn:Q3; [|discriminate]. injection Qf as <-.
    destruct (saved_new _ _ _ _ _ _ _ S) as (Rr & N & HR & Ln & Reg). cbn [s_map s_out length] in *.
    eexists _, (s_out w'), Rr, n', a. split; [exact Qf0|]. split; auto. cbn [b_mem b_disk b_map b_arcs b_pos fst snd d_main]. split; [now rewrite contents_append|].
    split; [subst w'; cbn [s_write s_out]; rewrite app_length, Ln; cbn; lia|]. split; auto. split.
    { unfold rput in Q3. destruct (nth_error s1 0) as [[?|]|] eqn:Qz; try discriminate. injection Q3 as <-. unfold rget. now rewrite (nth_upd_same s1 0 _ _ Qz). }
    split; [|split; [|split; [|split; [|split; [|split; [now apply Rt|split; [|split]]]]]]].
    - intros y Hy. destruct (HR _ Hy) as [A B]. split; auto. rewrite En. apply reach_pin. eapply extends_reach; eauto.
    - subst w'. cbn [s_write s_map]. auto.
    - now rewrite En.
    - subst w'. cbn [s_write s_map]. congruence.
    - subst w'. cbn [s_write s_out]. eauto.
    - intros r0 a0 Hr0 Ha0 Lk. assert (r0 = n) by (unfold rtake in Qn; rewrite Hr0 in Qn; now injection Qn). subst r0.
      destruct (Same _ Ha0) as [-> ->].
      destruct Rr as [|y Rr]; auto. exfalso. destruct (HR y) as [Ry Ny]; [now left|].
      clear - Qs Ew Ln Lk Ha0 Lp F. unfold ser_root, touch in Qs. cbn [touch_at] in Qs. unfold force in Qs. rewrite Ha0 in Qs.
      destruct F as [|F]; cbn [ser_arc s_map] in Qs.
      + destruct (look m a0) as [q|]; [|easy]. injection Qs as _ _ <-. unfold s_write in Ew. injection Ew. intros _ E. cbn [s_out] in *.
        apply (f_equal (@length _)) in E. rewrite app_length in E. cbn in *. lia.
      + destruct (look m a0) as [q|]; [|easy]. injection Qs as _ _ <-. unfold s_write in Ew. injection Ew. intros _ E. cbn [s_out] in *.
        apply (f_equal (@length _)) in E. rewrite app_length in E. cbn in *. lia.
    - intros r0 a0 Hr0 Ha0. assert (r0 = n) by (unfold rtake in Qn; rewrite Hr0 in Qn; now injection Qn). subst r0. now destruct (Same _ Ha0) as [-> _].
    - intros y rc ns Hy. destruct (F1 _ _ _ Hy) as (m1 & Hy1 & G1). destruct (ss_forced _ _ _ _ _ _ _ S _ _ _ Hy1) as (m2 & Hy2 & G2).
      destruct (X2 _ _ _ Hy2) as (rc' & Hy'). exists rc', m2. split; auto. eapply fslots_trans; eauto.
  Qed.
End PersistShare.

(** The database of PersistModel.v refines the one of PersistSpec.v. *)
From Coq Require Import Permutation.
From Verif Require Export PersistFrame.

Section PersistRefine.
  Context {K V : Type} (kcmp : K -> K -> comparison) (strat : nat -> nat -> bool).
  Notation tree := (rtree K V).
  Notation node := (node K V).
  Notation heap := (heap K V).
  Notation frec := (frec K V).
  Notation ser := (ser K V).
  Implicit Types (h : heap) (ns C : list node) (ts : list tree) (g L : list frec) (w : ser) (P : list nat) (b : db K V).

  Lemma tsize_eq (t : tree) : tsize t = t_size t.
  Proof. reflexivity. Qed.
  Lemma contents_append (o : option (list frec)) c : contents (append o c) = contents o ++ c.
  Proof. destruct c; cbn; auto. now rewrite app_nil_r. Qed.

  (** ** What is preserved. [vs]: the registers as trees; [od]: the tree on disk *)
  Record bgood b (vs : regs tree) (od : option tree) : Prop := {
    bg_inv : Inv (fst (b_mem b)) (static :: nodes_of (snd (b_mem b)) ++ map pin (b_arcs b));
    bg_static : den (fst (b_mem b)) static (Node [] None []);
    bg_rel : rel (fst (b_mem b)) (snd (b_mem b)) vs;
    bg_dom : forall a p, look (b_map b) a = Some p -> In a (b_arcs b);
    bg_range : forall a p, look (b_map b) a = Some p -> p < b_pos b;
    bg_file : exists X L, contents (d_main (b_disk b)) = X ++ L /\ length L = b_pos b /\ valid (fst (b_mem b)) (b_map b) L /\
      mirrored (fst (b_mem b)) (b_map b) L;
    bg_disk : forall t, od = Some t -> readable (contents (d_main (b_disk b))) t }.

  (** the file ends with a root record for the tree in register 0, and the registry knows the vector it points to *)
  Definition rooted b : Prop := exists X L r a p q v, contents (d_main (b_disk b)) = X ++ L /\ mirrored (fst (b_mem b)) (b_map b) L /\
    rget 0 (snd (b_mem b)) = Some r /\ n_kids r = inr a /\ look (b_map b) a = Some p /\ p < length L /\
    nth_error L (length L - 1) = Some (RRoot (MkA q v (length L - 1 - p))).
  Lemma rput_get {A} i (x : A) s s' : rput i x s = Some s' -> rget i s' = Some x.
  Proof. unfold rput. destruct (nth_error s i) as [[?|]|] eqn:Qz; try discriminate. intros [= <-]. unfold rget. now rewrite (nth_upd_same s i _ _ Qz). Qed.
  Lemma nth_end {A} (L : list A) x : nth_error (L ++ [x]) (length (L ++ [x]) - 1) = Some x.
  Proof. rewrite app_length. cbn. rewrite Nat.add_sub, nth_error_app2, Nat.sub_diag by lia. reflexivity. Qed.

  Lemma rel_len h s (vs : regs tree) : rel h s vs -> length s = length vs.
  Proof. apply Forall2_len. Qed.
  Definition pinr P : regs node := map (fun a => Some (pin a)) P.
  Lemma pinr_nodes P : nodes_of (pinr P) = map pin P.
  Proof. induction P; cbn; auto. f_equal. auto. Qed.
  Lemma pins_trees h C P : Inv h C -> incl (map pin P) C -> exists us, rel h (pinr P) (map Some us).
  Proof.
    intros I U. induction P as [|a P IH].
    - exists []. constructor.
    - destruct IH as (us & R); [intros x Hx; apply U; now right|]. destruct (inv_den_node h C (pin a) I) as (t & D); [apply U; now left|].
      exists (t :: us). constructor; auto.
  Qed.
  Lemma rel_join h s1 v1 s2 (v2 : regs tree) : rel h s1 v1 -> rel h s2 v2 -> rel h (s1 ++ s2) (v1 ++ v2).
  Proof. intros A B. now apply Forall2_app. Qed.
  Lemma rel_split h s1 : forall v1 s2 (v2 : regs tree), length s1 = length v1 -> rel h (s1 ++ s2) (v1 ++ v2) -> rel h s1 v1 /\ rel h s2 v2.
  Proof.
    induction s1 as [|x s1 IH]; intros [|y v1] s2 v2 E R; try discriminate; cbn in *; [split; [constructor|auto]|].
    inversion R; subst. destruct (IH v1 s2 v2) as [A B]; auto. split; auto. constructor; auto.
  Qed.
  Lemma pins_same h h' P us : rel h (pinr P) (map Some us) -> rel h' (pinr P) (map Some us) ->
    forall a t, In a P -> den h (pin a) t -> den h' (pin a) t.
  Proof.
    revert us. induction P as [|x P IH]; intros [|u us] A B a t Hin D; try easy; cbn in *; inversion A; subst; inversion B; subst.
    cbn in *. destruct Hin as [->|Hin]; [|eauto]. match goal with X : den h (pin a) u |- _ => pose proof (proj1 (den_fun h) _ _ X _ D) as <- end. auto.
  Qed.

  (** ** The user *)
  Lemma user_good F o b vs od vs' l : bgood b vs od -> pstep kcmp strat o vs = Some (vs', l) -> 2 * depth vs <= F ->
    exists st', astep kcmp strat true F o (b_mem b) = Some (st', l) /\
      bgood (MkDb st' (b_disk b) (b_map b) (b_arcs b) (b_pos b)) vs' od /\
      (forall a t, In a (b_arcs b) -> den (fst (b_mem b)) (pin a) t -> den (fst st') (pin a) t).
  Proof.
    destruct b as [[h s] d m P pos]. cbn [b_mem b_disk b_map b_arcs b_pos fst snd]. intros [I Ds R Dm Rg (X & L & Qf & QL & Va & Mi) Dk] H HF.
    cbn [b_mem b_disk b_map b_arcs b_pos fst snd] in *.
    destruct (pins_trees h _ P I) as (us & Rp).
    { intros x Hx. right. apply in_or_app. now right. }
    pose proof (pstep_more kcmp strat o vs (map Some us) vs' l H) as H'. pose proof (pstep_names kcmp strat o vs vs' l H) as [N Ln].
    assert (G : good (h, s ++ pinr P) (vs ++ map Some us)).
    { split; [|split]; cbn [fst snd]; auto.
      - rewrite nodes_app, pinr_nodes. auto.
      - now apply rel_join. }
    assert (Ft : forall i, In i (anames o) -> fits F (vs ++ map Some us) i).
    { intros i Hi t Ht. rewrite rget_app in Ht by auto. pose proof (depth_get vs i t Ht). lia. }
    destruct (astep_fits kcmp strat true o _ _ l H' F (h, s ++ pinr P) Ft G) as (st & Q & G').
    assert (Un : forall a, In a P -> untouched h (fst st) [pin a]).
    { intros a Ha. apply In_nth_error in Ha as (k & Hk).
      assert (Hr : rget (length s + k) (s ++ pinr P) = Some (pin a)).
      { unfold rget. rewrite nth_error_app2 by lia. replace (length s + k - length s) with k by lia. unfold pinr. now rewrite nth_error_map, Hk. }
      eapply (astep_untouched kcmp strat true); [exact H'|exact Ft|exact G|exact Q|exact Hr|].
      intros Hi. specialize (N _ Hi). rewrite <- (rel_len _ _ _ R) in N. lia. }
    rewrite astep_app in Q by (intros i Hi; rewrite (rel_len _ _ _ R); auto).
    unfold alift in Q. destruct (astep kcmp strat true F o (h, s)) as [[[h' s'] l']|]; [|discriminate]. injection Q as <- <-. cbn [fst] in Un.
    destruct G' as (I' & Ds' & R'). cbn [fst snd] in *. rewrite nodes_app, pinr_nodes in I'.
    pose proof (Forall2_len _ _ _ R') as Le. rewrite !app_length in Le. pose proof (Forall2_len _ _ _ Rp) as Lp.
    destruct (rel_split h' s' vs' (pinr P) (map Some us)) as [Ra Rb]; auto; [lia|].
    pose proof (pins_same h h' P us Rp Rb) as Sa.
    exists (h', s'). split; auto. cbn [fst snd]. split; [|exact Sa]. constructor; cbn [b_mem b_disk b_map b_arcs b_pos fst snd]; auto.
    exists X, L. split; auto. split; auto. split.
    - intros a p Hp. destruct (Va _ _ Hp) as (ts & D & Fd). exists ts. split; auto. eapply Sa; eauto.
    - eapply mirrored_stays; [|exact Mi]. intros a p rc ns Hp Ha. cbn [fst] in Un. apply (Un a (Dm _ _ Hp) a rc ns); [|exact Ha].
      exists (pin a). split; [now left|now constructor].
  Qed.

  (** ** Writing the tree in register 0: what flush and vacuum have in common. [P0]: the pins that are kept; [P]:
      the pins that all_arcs starts from *)
  Lemma write_good F h s (vs : regs tree) t P0 P L w : Inv h (static :: nodes_of s ++ map pin P0 ++ map pin P) -> den h static (Node [] None []) -> rel h s vs ->
    rget 0 vs = Some t -> tsize t <= F -> length L = s_base w -> in_range w -> valid h (s_map w) (L ++ s_out w) -> mirrored h (s_map w) (L ++ s_out w) -> (forall a p, look (s_map w) a = Some p -> In a P) ->
    exists n s1 h1 n1 w1 h2 P2 s2, rtake 0 s = Some (n, s1) /\ ser_root F h n w = Some (h1, n1, w1) /\ all_arcs F h1 n1 P = Some (h2, P2) /\
      rput 0 n1 s1 = Some s2 /\ Inv h2 (static :: nodes_of s2 ++ map pin P0 ++ map pin P2) /\ (forall m u, den h m u -> den h2 m u) /\ rel h2 s2 vs /\
      froot (L ++ s_out w1) t /\ valid h2 (s_map w1) (L ++ s_out w1) /\ in_range w1 /\ s_base w1 = s_base w /\
      (forall a p, look (s_map w1) a = Some p -> In a P2) /\ mirrored h2 (s_map w1) (L ++ s_out w1) /\
      (forall a rc ns, h_cell h a = Some (rc, ns) -> exists rc' ns', h_cell h2 a = Some (rc', ns') /\ Forall2 fslot ns ns') /\
      exists a p q v o, rget 0 s2 = Some n1 /\ n_kids n1 = inr a /\ look (s_map w1) a = Some p /\ p < s_base w + length o /\ s_out w1 = o ++ [RRoot (MkA q v (s_base w + length o - p))].
  Proof.
    intros I Ds R Ht HF HL HR Va Mi Dm.
    assert (Qt : rtake 0 vs = Some (t, upd_nth 0 None vs)) by (unfold rtake; now rewrite Ht).
    destruct (rtake_rel h s vs 0 t _ R Qt) as (n & s1 & Qn & D & R1 & P1).
    destruct (ser_root_ok F L h (static :: nodes_of s1 ++ map pin P0 ++ map pin P) n t w) as
      (h' & n' & w' & h1 & w1 & a & p & Q & I1 & D1 & En & F1 & P01 & S & Lp & Ew & _); auto.
    { eapply inv_perm; [|exact I]. rewrite P1. apply perm_swap. }
    destruct (ser_root_file L h h1 h' w w1 a p t S HL HR Va P01 Lp) as (Fr & V' & R').
    { now rewrite <- En. }
    rewrite <- Ew in Fr, V', R'.
    assert (Pm : forall m u, den h m u -> den h' m u) by (intros m u Hm; apply (ss_den _ _ _ _ _ _ _ S), P01, Hm).
    destruct (all_arcs_ok F h' (static :: n' :: nodes_of s1 ++ map pin P0) P n' t) as (h2 & P2 & Q2 & I2 & X2 & U2 & R2); auto.
    { eapply inv_perm; [|exact I1]. cbn. rewrite <- app_assoc. apply perm_swap. }
    { left. right. now left. }
    assert (D2 : forall m u, den h m u -> den h2 m u) by (intros m u Hm; apply (den_ext h' h2 X2), Pm, Hm).
    destruct (rput_rel h2 s1 (upd_nth 0 None vs) 0 n' t vs) as (s2 & Qp & R3 & P3).
    { eapply rel_pres; [|exact R1]. intros m u _. apply D2. }
    { now apply (den_ext h' h2 X2). }
    { now apply take_put. }
    exists n, s1, h', n', w', h2, P2, s2. split; auto. split; auto. split; auto. split; auto. split; [|split; [exact D2|split; [exact R3|split; [exact Fr|split; [|split; [exact R'|split; [|split; [|split; [|split]]]]]]]]].
    - eapply inv_perm; [|exact I2]. cbn. apply perm_skip. rewrite P3. cbn. now rewrite <- app_assoc.
    - intros x q Hx. destruct (V' _ _ Hx) as (us & Du & Fu). exists us. split; auto. now apply (den_ext h' h2 X2).
    - subst w'. cbn [s_write s_base]. apply S.
    - subst w'. cbn [s_write s_map]. intros x q Hx. destruct (ss_new _ _ _ _ _ _ _ S) as (nn & Em & _ & _ & _ & A).
      rewrite Em, look_app in Hx. destruct (look nn x) as [q'|] eqn:Qx.
      + apply look_in in Qx. destruct (A _ _ Qx) as (_ & _ & Rx & _). apply R2. rewrite En. now apply reach_pin.
      + apply U2. eapply Dm; eauto.
    - assert (M1 : mirrored h1 (s_map w) (L ++ s_out w)).
      { eapply mirrored_stays; [|exact Mi]. intros x q rc ns _ Hx. destruct (F1 _ _ _ Hx) as (ns' & Hx' & Fs). eauto. }
      pose proof (sstep_mirrored _ _ _ _ _ _ _ S HR M1) as M2. subst w'. cbn [s_write s_map s_out]. rewrite app_assoc. apply mirrored_app.
      eapply mirrored_stays; [|exact M2]. intros x q rc ns _ Hx. destruct (X2 _ _ _ Hx) as (rc' & Hx'). exists rc', ns. split; auto. apply fslot_refl.
    - intros x rc ns Hx. destruct (F1 _ _ _ Hx) as (n1 & Hx1 & G1). destruct (ss_forced _ _ _ _ _ _ _ S _ _ _ Hx1) as (n2 & Hx2 & G2).
      destruct (X2 _ _ _ Hx2) as (rc' & Hx'). exists rc', n2. split; auto. eapply fslots_trans; eauto.
    - exists a, p, (t_prefix t), (t_value t), (s_out w1). split.
      { now apply rput_get in Qp. }
      assert (Eb : s_pos w1 = s_base w + length (s_out w1)) by (unfold s_pos; now rewrite (ss_base _ _ _ _ _ _ _ S)).
      split; [now rewrite En|]. subst w'. cbn [s_write s_map s_out]. split; auto. split; [|now rewrite Eb].
      pose proof (sstep_range _ _ _ _ _ _ _ S HR _ _ Lp). lia.
  Qed.

  (** dropping pins *)
  Lemma unpin h s (vs : regs tree) P P' m L : Inv h (static :: nodes_of s ++ map pin P ++ map pin P') -> den h static (Node [] None []) -> rel h s vs ->
    valid h m L -> mirrored h m L -> (forall a p, look m a = Some p -> In a P) ->
    exists h', drop_all h (map pin P') = Some h' /\ Inv h' (static :: nodes_of s ++ map pin P) /\ den h' static (Node [] None []) /\ rel h' s vs /\ valid h' m L /\ mirrored h' m L.
  Proof.
    intros I Ds R Va Mi Dm. destruct (drop_frame h (map pin P') (static :: nodes_of s ++ map pin P)) as (h' & Q & I' & Fr & _).
    { eapply inv_perm; [|exact I]. rewrite (Permutation_app_comm (map pin P')). cbn. now rewrite app_assoc. }
    pose proof (frame_pres _ _ _ Fr) as Pr. exists h'. split; auto. split; auto. split; [apply Pr; auto; now left|]. split.
    - eapply rel_pres; [|exact R]. intros x u Hx. apply Pr. right. apply in_or_app. now left.
    - split.
      + intros a p Hp. destruct (Va _ _ Hp) as (us & Du & Fu). exists us. split; auto. apply Pr; auto. right. apply in_or_app. right. apply in_map. eauto.
      + eapply mirrored_stays; [|exact Mi]. intros a p rc ns Hp Ha. apply (frame_untouched _ _ _ Fr a rc ns); auto. exists (pin a). split; [|now constructor].
        right. apply in_or_app. right. apply in_map. eauto.
  Qed.

  Lemma flush_good F o b vs od t : bgood b vs od -> rget 0 vs = Some t -> tsize t <= F ->
    exists b', db_flush F o b = Some b' /\ bgood b' vs (match o with Written => Some t | _ => if clean o then od else None end) /\ (o = Written -> rooted b').
  Proof.
    destruct b as [[h s] d m P pos]. intros [I Ds R Dm Rg (X & L & Qf & QL & Va & Mi) Dk] Ht HF.
    cbn [b_mem b_disk b_map b_arcs b_pos fst snd] in *. unfold db_flush. cbn [b_mem b_disk b_map b_arcs b_pos fst snd].
    destruct (write_good F h s vs t [] P L (MkS m [] pos)) as
      (n & s1 & h1 & n1 & w1 & h2 & P2 & s2 & -> & -> & -> & -> & I2 & D2 & R2 & Fr & V2 & Rg2 & Bs & Dm2 & Mi2 & St2 & ra & rp & rq & rv & ro & Rt1 & Rt2 & Rt3 & Rt4 & Rt5); auto; cbn [s_map s_out s_base app].
    { intros x q Hx. specialize (Rg _ _ Hx). unfold s_pos. cbn. lia. }
    { now rewrite app_nil_r. }
    { now rewrite app_nil_r. }
    cbn in Bs. cbn [app map] in I2. destruct o as [|k junk].
    - eexists. split; [reflexivity|]. split; [|intros _].
      2: { exists X, (L ++ s_out w1), n1, ra, rp, rq, rv. cbn [b_mem b_disk b_map b_arcs b_pos fst snd d_main written]. rewrite contents_append, Qf, app_assoc.
        cbn [s_base] in Rt4, Rt5. split; auto. split; auto. split; auto. split; auto. split; auto.
        assert (E : L ++ s_out w1 = (L ++ ro) ++ [RRoot (MkA rq rv (pos + length ro - rp))]) by (now rewrite Rt5, app_assoc).
        rewrite E, nth_end. split; [rewrite !app_length; cbn; lia|]. do 3 f_equal. rewrite !app_length. cbn. lia. }
      constructor; cbn [b_mem b_disk b_map b_arcs b_pos fst snd d_main]; auto.
      + intros a p Hp. specialize (Rg2 _ _ Hp). unfold s_pos in Rg2. rewrite Bs in Rg2. lia.
      + exists X, (L ++ s_out w1). rewrite contents_append, Qf. cbn [written]. rewrite app_assoc. split; auto. split; [rewrite app_length; lia|split; [exact V2|exact Mi2]].
      + intros u [= <-]. rewrite contents_append, Qf. cbn [written]. right. rewrite <- app_assoc. now apply froot_shift.
    - destruct (unpin h2 s2 vs [] P2 [] []) as (h3 & -> & I3 & Ds3 & R3 & _); auto; try easy.
      rewrite app_nil_r in I3. eexists. split; [reflexivity|]. split; [|discriminate]. constructor; cbn [b_mem b_disk b_map b_arcs b_pos fst snd d_main map look]; try easy.
      + now rewrite app_nil_r.
      + rewrite contents_append, Qf. set (G := (X ++ L) ++ written (s_out w1) (Fails k junk)).
        exists (firstn (length G - pos) G), (skipn (length G - pos) G). split; [symmetry; apply firstn_skipn|]. split; [|split; easy].
        rewrite skipn_length. assert (pos <= length G) by (unfold G; rewrite !app_length; lia). lia.
      + intros u Hu. unfold clean in Hu. destruct k as [|k]; [|discriminate]. destruct junk; [|discriminate].
        rewrite contents_append. cbn [written firstn app]. rewrite app_nil_r. auto.
  Qed.

  Lemma mv_full (d : disk K V) r c : d_tmp d = append (d_tmp d) [] -> contents (d_main (mv (MkD (d_main d) (append (d_tmp d) (r :: c))))) = contents (d_tmp d) ++ r :: c.
  Proof. intros _. unfold mv, append. cbn [d_tmp]. destruct (contents (d_tmp d)); reflexivity. Qed.
  Lemma vacuum_good F o moved b vs od t : bgood b vs od -> rget 0 vs = Some t -> tsize t <= F ->
    exists b', db_vacuum F o moved b = Some b' /\ bgood b' vs (match o, moved with Written, true => Some t | _, _ => od end) /\
      (o = Written -> moved = true -> rooted b').
  Proof.
    destruct b as [[h s] d m P pos]. intros [I Ds R Dm Rg (X & L & Qf & QL & Va & Mi) Dk] Ht HF.
    cbn [b_mem b_disk b_map b_arcs b_pos fst snd] in *. unfold db_vacuum. cbn [b_mem b_disk b_map b_arcs b_pos fst snd].
    destruct (write_good F h s vs t P [] [] (MkS [] [] 0)) as
      (n & s1 & h1 & n1 & w1 & h2 & P2 & s2 & -> & -> & -> & -> & I2 & D2 & R2 & Fr & V2 & Rg2 & Bs & Dm2 & Mi2 & St2 & ra & rp & rq & rv & ro & Rt1 & Rt2 & Rt3 & Rt4 & Rt5); auto; cbn [s_map s_out s_base app map look]; try easy.
    { now rewrite app_nil_r. }
    cbn in Bs. cbn [app] in Fr, V2, Mi2.
    assert (K1 : Inv h2 (static :: nodes_of s2 ++ map pin P2 ++ map pin P)).
    { eapply inv_perm; [|exact I2]. apply perm_skip, Permutation_app_head, Permutation_app_comm. }
    assert (Old : exists b', match drop_all h2 (map pin P2) with
      | Some h3 => Some (MkDb (h3, s2) (MkD (d_main d) (append (d_tmp d) (written (s_out w1) o))) m P pos) | None => None end = Some b' /\ bgood b' vs od).
    (* the database stays as it is *)
    { destruct (unpin h2 s2 vs P P2 m L) as (h3 & -> & I3 & Ds3 & R3 & V3 & M3); auto.
      { intros a p Hp. destruct (Va _ _ Hp) as (us & Du & Fu). exists us. split; auto. }
      { eapply mirrored_stays; [|exact Mi]. intros a p rc ns _ Ha. eauto. }
      eexists. split; [reflexivity|]. constructor; cbn [b_mem b_disk b_map b_arcs b_pos fst snd d_main]; auto. exists X, L. auto. }
    destruct o as [|k junk]; [destruct moved|]; try (destruct Old as (b' & Qo & Go); exists b'; split; [exact Qo|split; [exact Go|discriminate]]). clear Old.
    destruct (unpin h2 s2 vs P2 P (s_map w1) (s_out w1)) as (h3 & -> & I3 & Ds3 & R3 & V3 & M3); auto.
    assert (Qo : exists r c, s_out w1 = r :: c).
    { destruct (s_out w1) as [|r c]; [|eauto]. inversion Fr. cbn in *. lia. }
    destruct Qo as (r & c & Qo). eexists. split; [reflexivity|]. split; [|intros _ _].
    2: { exists (contents (d_tmp d)), (s_out w1), n1, ra, rp, rq, rv. cbn [b_mem b_disk b_map b_arcs b_pos fst snd written]. rewrite Qo, mv_full by (now destruct d as [? []]). rewrite <- Qo.
      cbn [s_base Nat.add] in Rt4, Rt5. split; auto. split; auto. split; auto. split; auto. split; auto. rewrite Rt5, nth_end. split; [rewrite app_length; cbn; lia|].
      do 3 f_equal. rewrite app_length. cbn. lia. }
    constructor; cbn [b_mem b_disk b_map b_arcs b_pos fst snd]; auto.
    - intros a p Hp. specialize (Rg2 _ _ Hp). unfold s_pos in Rg2. rewrite Bs in Rg2. exact Rg2.
    - exists (contents (d_tmp d)), (s_out w1). cbn [written]. split; [|split; auto]. rewrite Qo. apply mv_full. now destruct d as [? []].
    - intros u [= <-]. right. cbn [written]. rewrite Qo, mv_full by (now destruct d as [? []]). rewrite <- Qo. now apply froot_shift.
  Qed.

  (** ** Loading *)
  Lemma dm_swap (dm : list (nat * nat)) a p : look (map (fun e => (snd e, fst e)) dm) a = Some p -> In (p, a) dm.
  Proof. intros H. apply look_in, in_map_iff in H as ([q x] & [= -> ->] & H). auto. Qed.
  Lemma dm_in (dm : list (nat * nat)) a p : NoDup (map snd dm) -> In (p, a) dm -> look (map (fun e => (snd e, fst e)) dm) a = Some p.
  Proof.
    intros N H. destruct (look (map (fun e => (snd e, fst e)) dm) a) as [q|] eqn:Q.
    - apply dm_swap in Q. f_equal. eapply nodup_snd; eauto.
    - exfalso. eapply in_look; [|exact Q]. instantiate (1 := p). apply in_map_iff. exists (p, a). auto.
  Qed.
  Lemma dm_mirrored g h dm : dmok g h dm -> mirrored h (map (fun e => (snd e, fst e)) dm) g.
  Proof.
    intros [N1 N2 _ _ M]. split.
    - intros a p Hp. apply dm_swap in Hp. destruct (M _ _ Hp) as (rc & ns & l & Ha & Hg & F). exists rc, ns, l. split; auto. split; auto.
      eapply Forall2_imp; [|exact F]. intros c x (b & Q & Hk & Hle & Hin). exists b, (p - a_back x). rewrite Q. cbn [n_kids n_prefix n_value].
      split; auto. split; [now apply dm_in|]. split; [lia|]. destruct x. cbn in *. f_equal. lia.
    - intros a b p Ha Hb. apply dm_swap in Ha, Hb. eapply nodup_fst; eauto.
  Qed.
  Lemma load_good F n (d : disk K V) t : readable (contents (d_main d)) t -> tsize t <= F ->
    exists b, db_load F (S n) d = Some b /\ bgood b (Some t :: repeat None n) (Some t) /\ b_disk b = d /\ (rooted b \/ contents (d_main d) = [] /\ exists r, rget 0 (snd (b_mem b)) = Some r /\ n_kids r = inr 0).
  Proof.
    intros Rd HF. pose proof (@init_good K V (S n)) as (I & Ds & R). unfold db_load. destruct (hinit (S n)) as [h0 s0] eqn:Qi. cbn [fst snd] in *.
    assert (Qp : rput 0 t (repeat None (S n)) = Some (Some t :: repeat None n)) by reflexivity.
    assert (Qs : nodes_of s0 = []) by (unfold hinit in Qi; injection Qi as _ <-; apply repeat_nodes).
    destruct Rd as [[Qe ->]|Fr].
    - rewrite Qe. destruct (mk_empty_yield true h0 (static :: nodes_of s0)) as (h1 & e & Qm & I1 & D1 & F1 & _); auto.
      { split; auto. now left. }
      assert (Ke : n_kids e = inr 0) by (unfold mk_empty in Qm; destruct (arc_clone h0 0); [now injection Qm as _ <-|discriminate]). rewrite Qm.
      pose proof (frame_pres _ _ _ F1) as Pr.
      assert (R0 : rel h1 s0 (repeat None (S n))).
      { eapply rel_pres; [|exact R]. eapply pres_incl; [|exact Pr]. intros y Hy. now right. }
      destruct (rput_rel _ _ _ _ _ _ _ R0 D1 Qp) as (s1 & Qr & R1 & P1). rewrite Qr.
      eexists. split; [reflexivity|]. split; [|split; [reflexivity|right; split; auto; exists e; split; [now apply rput_get in Qr|exact Ke]]]. constructor; cbn [b_mem b_disk b_map b_arcs b_pos fst snd look map]; try easy.
      + rewrite app_nil_r. eapply inv_perm; [|exact I1]. rewrite P1. apply perm_swap.
      + apply Pr; [now left|exact Ds].
      + exists [], []. rewrite Qe. split; [reflexivity|]. split; [reflexivity|split; easy].
      + intros u [= <-]. left. auto.
    - inversion Fr as [q v k us L0 Hn Hk Hle Fd]. subst t. set (g := contents (d_main d)) in *.
      assert (Qm : de_root F g h0 = match de_arc F g h0 (length g - 1 - k) [] with Some (h1, dm, a) => Some (h1, dm, MkN q v (inr a)) | None => None end).
      { unfold de_root, file_root. rewrite Hn. cbn [a_back a_prefix a_value]. now replace (k <=? length g - 1) with true by (symmetry; apply Nat.leb_le; lia). }
      pose proof HF as HF0. simpl in HF. fold (tsizes us) in HF.
      destruct (de_ok F g h0 [static] (length g - 1 - k) us [] Fd) as (h1 & dm & a & Qd & I1 & X1 & N1 & _ & Ok & Ina & Rc).
      { lia. }
      { cbn. rewrite Qs in I. exact I. }
      { constructor; cbn; try easy; constructor. }
      rewrite Qd in Qm. set (tn := MkN q v (inr a)) in *.
      assert (Dt : den h1 tn (Node q v us)).
      { destruct (dk_val _ _ _ Ok _ _ Ina) as (us' & Du & Fu). pose proof (proj1 (fden_fun g) _ _ Fd _ Fu) as <-. now apply pin_den. }
      destruct (all_arcs_ok F h1 (static :: tn :: dpins dm) [] tn (Node q v us)) as (h2 & P & Qa & I2 & X2 & _ & R2); auto.
      { cbn [map]. rewrite app_nil_r. eapply (inv_perm _ (tn :: static :: dpins dm)); [apply perm_swap|]. eapply (inv_kids _ _ (pin a)); [reflexivity|exact I1]. }
      { left. right. now left. }
      destruct (drop_frame h2 (dpins dm) (static :: tn :: map pin P)) as (h3 & Q3 & I3 & F3 & _).
      { eapply inv_perm; [|exact I2]. cbn. rewrite Permutation_app_comm. cbn. rewrite app_comm_cons. apply (Permutation_app_comm (static :: tn :: map pin P)). }
      pose proof (frame_pres _ _ _ F3) as P3.
      assert (D3 : den h3 tn (Node q v us)) by (apply P3; [right; now left|now apply (den_ext h1 h2 X2)]).
      assert (R0 : rel h3 s0 (repeat None (S n))).
      { unfold hinit in Qi. injection Qi as _ <-. apply (repeat_rel h3 (S n)). }
      destruct (rput_rel _ _ _ _ _ _ _ R0 D3 Qp) as (s1 & Qs1 & R1 & P1).
      assert (Dom : forall x p, In (p, x) dm -> In x P).
      { intros x p Hx. destruct (Rc _ _ Hx) as [[]|(_ & Hr)]. apply R2. unfold tn. now apply reach_pin. }
      assert (Mi : mirrored h3 (map (fun e => (snd e, fst e)) dm) g).
      { apply (mirrored_stays h1); [|apply (dm_mirrored _ _ _ Ok)]. intros x p rc ns Hx Hc. apply dm_swap in Hx.
        destruct (X2 _ _ _ Hc) as (rc2 & Hc2). destruct (F3 x rc2 ns) as (rc3 & Hc3); [|exact Hc2|exists rc3, ns; split; [exact Hc3|apply fslot_refl]].
        exists (pin x). split; [|now constructor]. right. right. apply in_map. eauto. }
      exists (MkDb (h3, s1) d (map (fun e => (snd e, fst e)) dm) P (length g)). split; [|split; [|split; [reflexivity|left]]].
      { clear - Qm Qa Q3 Qs1 L0. destruct g; [cbn in L0; lia|]. rewrite Qm, Qa. unfold dpins in Q3. rewrite Q3, Qs1. reflexivity. }
      2: { exists [], g, tn, a, (length g - 1 - k), q, v. cbn [b_mem b_disk b_map b_arcs b_pos fst snd app]. split; auto. split; auto. split.
        { now apply rput_get in Qs1. }
        split; [reflexivity|]. split; [now apply dm_in; [apply (dk_snd _ _ _ Ok)|]|]. split; [lia|]. rewrite Hn. do 3 f_equal. lia. }
      constructor; cbn [b_mem b_disk b_map b_arcs b_pos fst snd].
      + eapply inv_perm; [|exact I3]. apply perm_skip. rewrite P1, Qs. reflexivity.
      + apply P3; [now left|]. apply (den_ext h1 h2 X2), (den_ext h0 h1 X1), Ds.
      + exact R1.
      + intros x p Hx. apply dm_swap in Hx. eauto.
      + intros x p Hx. apply dm_swap in Hx. destruct (Rc _ _ Hx) as [[]|(Hq & _)]. lia.
      + exists [], g. split; auto. split; auto. split.
        * intros x p Hx. apply dm_swap in Hx. destruct (dk_val _ _ _ Ok _ _ Hx) as (ws & Dw & Fw). exists ws. split; auto.
          apply P3; [|now apply (den_ext h1 h2 X2)]. right. right. apply in_map. eauto.
        * exact Mi.
      + intros u [= <-]. now right.
  Qed.

  (** ** Histories *)
  Lemma map_const {X Y} (y : Y) (l : list X) : map (fun _ => y) l = repeat y (length l).
  Proof. induction l; cbn; congruence. Qed.
  Definition need (x : sdb (K := K) (V := V)) : nat := 2 * depth (fst x) + match snd x with Some t => tsize t | None => 0 end.
  Lemma rget_bound vs i (t : tree) : rget i vs = Some t -> tsize t <= 2 * depth vs.
  Proof. intros H. pose proof (depth_get vs i t H). rewrite tsize_eq. lia. Qed.
  Lemma step_bgood F o b x x' l : bgood b (fst x) (snd x) -> s_step kcmp strat o x = Some (x', l) -> need x <= F ->
    exists b', db_step kcmp strat F o b = Some (b', l) /\ bgood b' (fst x') (snd x').
  Proof.
    destruct x as [vs od]. cbn [fst snd]. unfold need. cbn [fst snd]. intros G H HF. destruct o as [o|o|o moved|]; cbn [s_step db_step] in *.
    - destruct (pstep kcmp strat o vs) as [[vs' l']|] eqn:Q; [|discriminate]. injection H as <- <-.
      destruct (user_good F o b vs od vs' l' G Q ltac:(lia)) as (st & -> & G' & _). eexists. split; [reflexivity|exact G'].
    - assert (E : exists t, rget 0 vs = Some t) by (destruct o; destruct (rget 0 vs); eauto; discriminate). destruct E as (t & E). rewrite E in H.
      pose proof (rget_bound vs 0 t E). destruct (flush_good F o b vs od t G E ltac:(lia)) as (b' & -> & G' & _).
      exists b'. destruct o; injection H as <- <-; split; auto.
    - assert (E : exists t, rget 0 vs = Some t) by (destruct o, moved; destruct (rget 0 vs); eauto; discriminate). destruct E as (t & E). rewrite E in H.
      pose proof (rget_bound vs 0 t E). destruct (vacuum_good F o moved b vs od t G E ltac:(lia)) as (b' & -> & G' & _).
      exists b'. destruct o, moved; injection H as <- <-; split; auto.
    - destruct od as [t|]; [|discriminate]. destruct vs as [|v vs]; [discriminate|]. injection H as <- <-.
      rewrite (rel_len _ _ _ (bg_rel _ _ _ G)). cbn [length].
      destruct (load_good F (length vs) (b_disk b) t) as (b' & -> & G' & _).
      { apply (bg_disk _ _ _ G). reflexivity. }
      { lia. }
      exists b'. split; auto. cbn [fst snd]. rewrite map_const. auto.
  Qed.
  Lemma run_bgood os : forall x x' l, s_run kcmp strat os x = Some (x', l) ->
    exists F0, forall F b, F0 <= F -> bgood b (fst x) (snd x) -> exists b', db_run kcmp strat F os b = Some (b', l) /\ bgood b' (fst x') (snd x').
  Proof.
    induction os as [|o os IH]; intros x x' l H; cbn [s_run db_run] in *.
    - injection H as <- <-. exists 0. eauto.
    - destruct (s_step kcmp strat o x) as [[x1 l1]|] eqn:Q; [|discriminate]. destruct (s_run kcmp strat os x1) as [[x2 l2]|] eqn:Q2; [|discriminate].
      injection H as <- <-. destruct (IH _ _ _ Q2) as (F0 & H0). exists (Nat.max F0 (need x)). intros F b HF G.
      destruct (step_bgood F o b x x1 l1 G Q ltac:(lia)) as (b1 & -> & G1). destruct (H0 F b1 ltac:(lia) G1) as (b2 & -> & G2). eauto.
  Qed.
End PersistRefine.

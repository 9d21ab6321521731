(** Writing a tree: every vector that is reached gets a record that mirrors it, and the registry of the
    serializer is right about every address it knows. *)
From Coq Require Import Permutation.
From Verif Require Export HeapFrame PersistSpec.

Scheme fden_fdens_min := Minimality for fden Sort Prop
  with fdens_fden_min := Minimality for fdens Sort Prop.
Combined Scheme fden_fdens_ind from fden_fdens_min, fdens_fden_min.

Section PersistFacts.
  Context {K V : Type}.
  Notation tree := (rtree K V).
  Notation node := (node K V).
  Notation heap := (heap K V).
  Notation frec := (frec K V).
  Notation ser := (ser K V).
  Implicit Types (h : heap) (ns C : list node) (ts : list tree) (g : list frec) (w : ser).

  (** ** Files *)
  Lemma fden_app g e : (forall p ts, fden g p ts -> fden (g ++ e) p ts) /\ (forall p l ts, fdens g p l ts -> fdens (g ++ e) p l ts).
  Proof.
    apply fden_fdens_ind; intros; econstructor; eauto. rewrite nth_error_app1; auto.
    apply nth_error_Some. congruence.
  Qed.
  Lemma fden_shift x g : (forall p ts, fden g p ts -> fden (x ++ g) (length x + p) ts) /\
    (forall p l ts, fdens g p l ts -> fdens (x ++ g) (length x + p) l ts).
  Proof.
    apply fden_fdens_ind; intros; econstructor; eauto; try lia.
    - rewrite nth_error_app2 by lia. now replace (length x + p - length x) with p by lia.
    - now replace (length x + p - k) with (length x + (p - k)) by lia.
  Qed.
  Lemma fden_fun g : (forall p ts, fden g p ts -> forall ts', fden g p ts' -> ts = ts') /\
    (forall p l ts, fdens g p l ts -> forall ts', fdens g p l ts' -> ts = ts').
  Proof.
    apply fden_fdens_ind.
    - intros p l ts Hn D IH ts' D'. inversion D'; subst. apply IH. now replace l with l0 by congruence.
    - intros p ts' D'. now inversion D'.
    - intros p q v k l us ts Hk Hp D IH Ds IHs ts' D'. inversion D'; subst. f_equal; auto. f_equal. auto.
  Qed.
  Lemma froot_shift x g t : froot g t -> froot (x ++ g) t.
  Proof.
    intros R. destruct R as [q v k us Hl Hn Hk Hp D].
    assert (E : length (x ++ g) - 1 = length x + (length g - 1)) by (rewrite app_length; lia).
    apply (froot_intro _ q v k us).
    - rewrite app_length. lia.
    - rewrite E, nth_error_app2 by lia. now replace (length x + (length g - 1) - length x) with (length g - 1) by lia.
    - auto.
    - lia.
    - rewrite E. replace (length x + (length g - 1) - k) with (length x + (length g - 1 - k)) by lia. now apply fden_shift.
  Qed.
  Lemma froot_fun g t t' : froot g t -> froot g t' -> t = t'.
  Proof.
    intros A B. destruct A as [q v k us Hl Hn Hk Hp D]. inversion B as [q' v' k' us' Hl' Hn' Hk' Hp' D']; subst.
    rewrite Hn in Hn'. injection Hn' as <- <- <-. f_equal. exact (proj1 (fden_fun g) _ _ D _ D').
  Qed.

  (** ** Materialisation in place *)
  Definition fslot (n n' : node) : Prop := n' = n \/ exists ts c, n_kids n = inl ts /\ n' = with_arc n c.
  Definition forced h h' : Prop := forall b rc ns, h_cell h b = Some (rc, ns) -> exists ns', h_cell h' b = Some (rc, ns') /\ Forall2 fslot ns ns'.
  Lemma fslot_refl ns : Forall2 fslot ns ns.
  Proof. induction ns; constructor; auto. now left. Qed.
  Lemma forced_refl h : forced h h.
  Proof. intros b rc ns H. exists ns. split; auto. apply fslot_refl. Qed.
  Lemma fslot_trans n1 n2 n3 : fslot n1 n2 -> fslot n2 n3 -> fslot n1 n3.
  Proof.
    intros [->|(ts & c & Q & ->)] B; auto. destruct B as [->|(ts' & c' & Q' & _)]; [|discriminate]. right. eauto.
  Qed.
  Lemma fslots_trans ns1 : forall ns2 ns3, Forall2 fslot ns1 ns2 -> Forall2 fslot ns2 ns3 -> Forall2 fslot ns1 ns3.
  Proof. induction ns1; intros ns2 ns3 A B; inversion A; subst; inversion B; subst; constructor; eauto using fslot_trans. Qed.
  Lemma forced_trans h1 h2 h3 : forced h1 h2 -> forced h2 h3 -> forced h1 h3.
  Proof.
    intros A B b rc ns H. destruct (A _ _ _ H) as (n2 & H2 & F2). destruct (B _ _ _ H2) as (n3 & H3 & F3). eauto using fslots_trans.
  Qed.
  Lemma fslot_arc n n' b : n_kids n = inr b -> fslot n n' -> n' = n.
  Proof. intros Q [->|(ts & c & Q' & _)]; congruence. Qed.
  Lemma forced_arcs h h' b rc ns : forced h h' -> h_cell h b = Some (rc, ns) -> (forall n, In n ns -> exists c, n_kids n = inr c) ->
    h_cell h' b = Some (rc, ns).
  Proof.
    intros X H A. destruct (X _ _ _ H) as (ns' & H' & F). rewrite H'. do 2 f_equal. clear - F A.
    induction F as [|n n' ns ns' Q F IH]; auto. f_equal; [|apply IH; intros m Hm; apply A; now right].
    destruct (A n) as (c & Qc); [now left|]. eapply fslot_arc; eauto.
  Qed.
  Lemma Forall2_in {X Y} (R : X -> Y -> Prop) l l' x : Forall2 R l l' -> In x l -> exists y, In y l' /\ R x y.
  Proof. induction 1; intros []; subst; [eexists; split; [now left|auto]|]. destruct IHForall2 as (z & ? & ?); auto. exists z. split; auto. now right. Qed.
  Lemma Forall2_imp {X Y} (R S : X -> Y -> Prop) l l' : (forall x y, R x y -> S x y) -> Forall2 R l l' -> Forall2 S l l'.
  Proof. intros H. induction 1; constructor; auto. Qed.
  Lemma Forall2_len {X Y} (R : X -> Y -> Prop) l l' : Forall2 R l l' -> length l = length l'.
  Proof. induction 1; simpl; auto. Qed.
  Lemma forced_reach h h' n b : forced h h' -> reach h n b -> reach h' n b.
  Proof.
    intros X R. induction R as [n a Q|n a rc ns m b Q Ha Hm R IH]; [now constructor|].
    destruct (X _ _ _ Ha) as (ns' & Ha' & F). destruct (Forall2_in _ _ _ _ F Hm) as (m' & Hm' & S).
    eapply reach_below; eauto. destruct S as [->|(ts & c & Qm & ->)]; auto. inversion R; congruence.
  Qed.
  Lemma fslot_upd ns i c b : nth_error ns i = Some c -> fslot c (with_arc c b) -> Forall2 fslot ns (upd_nth i (with_arc c b) ns).
  Proof.
    revert i. induction ns as [|n ns IH]; intros [|i] H S; try discriminate; unfold upd_nth; simpl in *.
    - injection H as ->. constructor; auto. apply fslot_refl.
    - constructor; [now left|]. now apply IH.
  Qed.
  Lemma force_at_forced h C a i h' : Inv h C -> force_at h a i = Some h' -> forced h h'.
  Proof.
    intros I. unfold force_at. destruct (h_cell h a) as [[rc ns]|] eqn:Ha; [|discriminate].
    destruct (nth_error ns i) as [c|] eqn:Hn; [|discriminate]. destruct (force h c) as [h1 b] eqn:Q. intros [= <-].
    assert (S : fslot c (with_arc c b)).
    { unfold force in Q. destruct c as [p v [ts|d]]; cbn [n_kids] in Q; [right; exists ts, b; split; reflexivity|injection Q as <- <-; now left]. }
    assert (E : forall x, x < h_next h -> h_cell h1 x = h_cell h x).
    { intros x Hx. unfold force in Q. destruct (n_kids c); [|injection Q as <- <-; auto]. injection Q as <- <-. cbn.
      replace (x =? h_next h) with false by (symmetry; apply Nat.eqb_neq; lia). reflexivity. }
    intros x r ms Hx. pose proof (inv_lt _ _ _ _ I Hx) as Lx. destruct (Nat.eq_dec x a) as [->|N].
    - rewrite upd_same. assert (r = rc /\ ms = ns) as [-> ->] by (rewrite Ha in Hx; now injection Hx). eexists. split; eauto. now apply fslot_upd.
    - rewrite upd_other by auto. rewrite E by auto. exists ms. split; auto. apply fslot_refl.
  Qed.

  (** ** The registry *)
  Lemma look_app m n k : look (n ++ m) k = match look n k with Some p => Some p | None => look m k end.
  Proof. induction n as [|[x y] n IH]; simpl; auto. destruct (x =? k); auto. Qed.
  Lemma look_in m k p : look m k = Some p -> In (k, p) m.
  Proof. induction m as [|[x y] m IH]; simpl; [discriminate|]. destruct (Nat.eqb_spec x k); [intros [= ->]; subst; now left|]. right. auto. Qed.
  Lemma in_look m k p : In (k, p) m -> look m k <> None.
  Proof. induction m as [|[x y] m IH]; simpl; [easy|]. intros [[= -> ->]|H]; [rewrite Nat.eqb_refl; easy|]. destruct (x =? k); [easy|auto]. Qed.
  Lemma in_look_nodup m k p : NoDup (map fst m) -> In (k, p) m -> look m k = Some p.
  Proof.
    induction m as [|[x y] m IH]; intros N; [easy|]. simpl in N. inversion N as [|? ? N1 N2]; subst. intros [[= -> ->]|H]; simpl.
    - now rewrite Nat.eqb_refl.
    - destruct (Nat.eqb_spec x k) as [->|]; auto. exfalso. apply N1. apply in_map_iff. exists (k, p). auto.
  Qed.

  (** [a] stands for the trees that the file has at position [p] *)
  Definition at_file h g (a p : nat) : Prop := exists ts, den h (pin a) (Node [] None ts) /\ fden g p ts.
  Definition valid h (m : list (nat * nat)) g : Prop := forall a p, look m a = Some p -> at_file h g a p.
  (** the record at [p] is the image of the vector at [a] *)
  Definition mslot (m : list (nat * nat)) (p : nat) (c : node) (x : anode K V) : Prop :=
    exists b q, n_kids c = inr b /\ look m b = Some q /\ q < p /\ x = MkA (n_prefix c) (n_value c) (p - q).
  Definition mirror h (m : list (nat * nat)) g (a p : nat) : Prop :=
    exists rc ns l, h_cell h a = Some (rc, ns) /\ nth_error g p = Some (RVec l) /\ Forall2 (mslot m p) ns l.

  Lemma at_file_mono h h' g e a p : (forall m t, den h m t -> den h' m t) -> at_file h g a p -> at_file h' (g ++ e) a p.
  Proof. intros P (ts & D & Fd). exists ts. split; auto. now apply fden_app. Qed.
  Lemma mirror_mono h h' m n g e a p : forced h h' -> (forall x q, look m x = Some q -> look n x = Some q) ->
    mirror h m g a p -> mirror h' n (g ++ e) a p.
  Proof.
    intros X Y (rc & ns & l & Ha & Hp & F). exists rc, ns, l. split; [|split].
    - eapply forced_arcs; eauto. intros c Hc. destruct (Forall2_in _ _ _ _ F Hc) as (x & _ & b & _ & Q & _). eauto.
    - rewrite nth_error_app1; auto. apply nth_error_Some. congruence.
    - eapply Forall2_imp; [|exact F]. intros c x (b & q & Q & Hl & Hq & ->). exists b, q. auto.
  Qed.
  (** a mirrored vector whose children are right is right *)
  Lemma pin_den h p v b us : den h (MkN p v (inr b)) (Node p v us) <-> den h (pin b) (Node [] None us).
  Proof. split; intros D; inversion D; subst; econstructor; eauto. Qed.
  Lemma mirror_file h m g a p ts : mirror h m g a p -> den h (pin a) (Node [] None ts) ->
    (forall b q us, look m b = Some q -> den h (pin b) (Node [] None us) -> tsizes us < tsizes ts -> fden g q us) -> fden g p ts.
  Proof.
    intros (rc & ns & l & Ha & Hp & F) D Va. econstructor; eauto. inversion D; subst.
    match goal with X : h_cell h a = Some (_, ?n0) |- _ => assert (n0 = ns) by congruence; subst n0 end.
    match goal with X : dens h ns ts |- _ => rename X into Ds end.
    assert (Va' : forall b q us, look m b = Some q -> den h (pin b) (Node [] None us) -> tsizes us < tsizes ts -> fden g q us) by auto.
    clear D Hp Va. repeat match goal with X : h_cell h a = _ |- _ => clear X end. revert ts Ds Va'.
    induction F as [|c x ns l (b & q & Q & Hb & Hq & ->) F IH]; intros ts Ds Va; inversion Ds as [|? t ? ts' Dc Ds']; subst; [constructor|].
    destruct c as [cp cv ck]. cbn [n_kids n_prefix n_value] in *. subst ck. destruct t as [tp tv us].
    assert (tp = cp /\ tv = cv) as [-> ->] by (inversion Dc; auto). apply pin_den in Dc. unfold tsizes in Va. simpl in Va.
    constructor; try lia.
    - replace (p - (p - q)) with q by lia. eapply Va; eauto. unfold tsizes. lia.
    - apply IH; auto. intros b' q' us' Hb' Du Lu. eapply Va; eauto. unfold tsizes in *. lia.
  Qed.

  (** ** What a stretch of serialization does: [a] is where it started, [B] bounds the sizes of what is new *)
  Record sstep (L : list frec) (a B : nat) h w h' w' : Prop := {
    ss_den : forall m t, den h m t -> den h' m t;
    ss_forced : forced h h';
    ss_base : s_base w' = s_base w;
    ss_out : exists e, s_out w' = s_out w ++ e;
    ss_new : exists n, s_map w' = n ++ s_map w /\ length n + length (s_out w) = length (s_out w') /\
      NoDup (map fst n) /\ NoDup (map snd n) /\
      forall x q, In (x, q) n -> s_pos w <= q < s_pos w' /\ look (s_map w) x = None /\ reach h' (pin a) x /\
        (exists us, den h' (pin x) (Node [] None us) /\ tsizes us <= B) /\ mirror h' (s_map w') (L ++ s_out w') x q }.

  Lemma sstep_refl L a B h w : sstep L a B h w h w.
  Proof.
    constructor; auto using forced_refl.
    - exists []. now rewrite app_nil_r.
    - exists []. simpl. repeat split; auto; try constructor; easy.
  Qed.
  Lemma look_stable L a B h w h' w' x q : sstep L a B h w h' w' -> look (s_map w) x = Some q -> look (s_map w') x = Some q.
  Proof.
    intros S H. destruct (ss_new _ _ _ _ _ _ _ S) as (n & -> & _ & _ & _ & A). rewrite look_app.
    destruct (look n x) as [r|] eqn:Q; auto. apply look_in in Q. destruct (A _ _ Q) as (_ & Z & _). congruence.
  Qed.
  Lemma sstep_trans L a B h w h1 w1 h2 w2 : sstep L a B h w h1 w1 -> sstep L a B h1 w1 h2 w2 -> sstep L a B h w h2 w2.
  Proof.
    intros S T. pose proof (fun x q => look_stable _ _ _ _ _ _ _ x q T) as St.
    destruct S as [d1 f1 b1 (e1 & o1) (n1 & m1 & k1 & N1 & M1 & A1)], T as [d2 f2 b2 (e2 & o2) (n2 & m2 & k2 & N2 & M2 & A2)].
    constructor; eauto using forced_trans; try congruence.
    - exists (e1 ++ e2). now rewrite o2, o1, app_assoc.
    - exists (n2 ++ n1). split; [now rewrite m2, m1, app_assoc|]. rewrite app_length, !map_app. split; [lia|].
      assert (P01 : s_pos w <= s_pos w1) by (unfold s_pos; rewrite b1, o1, app_length; lia).
      assert (P12 : s_pos w1 <= s_pos w2) by (unfold s_pos; rewrite b2, o2, app_length; lia).
      assert (Dis : forall (l1 l2 : list nat), NoDup l1 -> NoDup l2 -> (forall x, In x l1 -> ~ In x l2) -> NoDup (l1 ++ l2)).
      { intros l1 l2. induction l1; simpl; intros U1 U2 U; auto. inversion U1; subst. constructor; [|apply IHl1; auto].
        rewrite in_app_iff. intros [?|?]; auto. eapply U; eauto. }
      split; [apply Dis; auto|split; [apply Dis; auto|]].
      + intros x Hx Hy. apply in_map_iff in Hx as ([x' q] & <- & Hx), Hy as ([y' r] & E & Hy). cbn in E. subst y'. cbn in *.
        destruct (A2 _ _ Hx) as (_ & Z & _). rewrite m1, look_app in Z. pose proof (in_look _ _ _ Hy). now destruct (look n1 x').
      + intros x Hx Hy. apply in_map_iff in Hx as ([x' q] & <- & Hx), Hy as ([y' r] & E & Hy). cbn in E. subst r. cbn in *.
        destruct (A2 _ _ Hx) as (? & _). destruct (A1 _ _ Hy) as (? & _). lia.
      + intros x q Hx. apply in_app_or in Hx as [Hx|Hx].
        * destruct (A2 _ _ Hx) as (R & Z & U & W & M). split; [lia|]. split; [rewrite m1, look_app in Z; now destruct (look n1 x)|]. split; [exact U|]. split; [exact W|exact M].
        * destruct (A1 _ _ Hx) as (R & Z & U & (us & D & Lu) & M). split; [lia|]. split; auto. split; [eapply forced_reach; eauto|].
          split; [eauto|]. rewrite o2, app_assoc. eapply mirror_mono; [exact f2|exact St|exact M].
  Qed.
  Lemma sstep_up L a B a' B' h w h' w' : sstep L a' B' h w h' w' -> B' <= B -> (forall x, reach h' (pin a') x -> reach h' (pin a) x) -> sstep L a B h w h' w'.
  Proof.
    intros [d f b o (n & m & k & N & M & A)] HB R. constructor; auto. exists n. repeat (split; auto).
    - apply (proj1 (A _ _ H)).
    - apply (proj1 (A _ _ H)).
    - apply (proj2 (A _ _ H)).
    - apply R. apply (proj2 (A _ _ H)).
    - destruct (A _ _ H) as (_ & _ & _ & (us & D & Lu) & _). exists us. split; auto. lia.
    - apply (A _ _ H).
  Qed.
  Lemma sstep_valid L a B h w h' w' : sstep L a B h w h' w' -> valid h (s_map w) (L ++ s_out w) -> valid h' (s_map w') (L ++ s_out w').
  Proof.
    intros [d f b (e & o) (n & m & k & N & M & A)] Va.
    assert (G : forall N x q us, tsizes us < N -> look (s_map w') x = Some q -> den h' (pin x) (Node [] None us) -> fden (L ++ s_out w') q us).
    { induction N0 as [|N0 IH]; intros x q us Lu Hx Du; [lia|]. pose proof Hx as Hx0. rewrite m, look_app in Hx. destruct (look n x) as [q'|] eqn:Q.
      - injection Hx as <-. destruct (A x q' (look_in _ _ _ Q)) as (_ & _ & _ & _ & Mi). eapply mirror_file; eauto.
        intros y r vs Hy Dv Lv. eapply IH; eauto. lia.
      - destruct (Va _ _ Hx) as (us' & D' & Fd). apply d in D'. pose proof (proj1 (den_fun h') _ _ D' _ Du) as [= ->].
        rewrite o, app_assoc. now apply fden_app. }
    intros x q Hx. assert (exists us, den h' (pin x) (Node [] None us)) as (us & Du).
    { rewrite m, look_app in Hx. destruct (look n x) as [q'|] eqn:Q.
      - destruct (A x q' (look_in _ _ _ Q)) as (_ & _ & _ & (us & Du & _) & _). eauto.
      - destruct (Va _ _ Hx) as (us' & D' & _). eauto. }
    exists us. split; eauto.
  Qed.

  (** ** Serialization *)
  Lemma dens_child_size h ns ts i c p v us : dens h ns ts -> nth_error ns i = Some c -> den h c (Node p v us) -> tsizes us < tsizes ts.
  Proof.
    intros Ds. revert i. induction Ds as [|n t ns ts D Ds IH]; intros [|i] H Dc; try discriminate; unfold tsizes; simpl in *.
    - injection H as ->. pose proof (proj1 (den_fun h) _ _ D _ Dc) as ->. simpl. fold (tsizes us). lia.
    - specialize (IH i H Dc). unfold tsizes in IH. lia.
  Qed.
  Definition ser_spec F := forall L h C a rc ns ts w, Inv h C -> h_cell h a = Some (rc, ns) -> dens h ns ts -> tsizes ts < F ->
    length L = s_base w -> (forall x q, look (s_map w) x = Some q -> q < s_pos w) ->
    exists h' w' p, ser_arc F h a w = Some (h', w', p) /\ Inv h' C /\ sstep L a (tsizes ts) h w h' w' /\ look (s_map w') a = Some p.
  Definition in_range w : Prop := forall x q, look (s_map w) x = Some q -> q < s_pos w.
  Lemma sstep_range L a B h w h' w' : sstep L a B h w h' w' -> in_range w -> in_range w'.
  Proof.
    intros [d f b (e & o) (n & m & k & N & M & A)] R x q Hx. rewrite m, look_app in Hx. destruct (look n x) as [q'|] eqn:Q.
    - injection Hx as <-. apply (A x q' (look_in _ _ _ Q)).
    - specialize (R _ _ Hx). unfold s_pos in *. rewrite b, o, app_length. lia.
  Qed.
  (** the slots i.. of the vector at a *)
  Definition done_slot (m : list (nat * nat)) (c : node) (x : list K * option V * nat) : Prop :=
    exists b p, n_kids c = inr b /\ look m b = Some p /\ x = (n_prefix c, n_value c, p).
  Lemma slots_ok F L a rc ts : ser_spec F -> tsizes ts <= F -> forall k i h C ns w, Inv h C -> h_cell h a = Some (rc, ns) -> dens h ns ts ->
    i + k = length ns -> length L = s_base w -> in_range w ->
    exists h' w' l ns', ser_slots (ser_arc F) a k i h w = Some (h', w', l) /\ Inv h' C /\ sstep L a (tsizes ts - 1) h w h' w' /\
      h_cell h' a = Some (rc, ns') /\ Forall2 (done_slot (s_map w')) (skipn i ns') l.
  Proof.
    intros SP HF. induction k as [|k IH]; intros i h C ns w I Ha D Hi HL HR; cbn [ser_slots].
    - exists h, w, [], ns. split; auto. split; auto. split; [apply sstep_refl|]. split; auto. rewrite skipn_all2 by lia. constructor.
    - destruct (nth_error ns i) as [c|] eqn:Hn; [|apply nth_error_None in Hn; lia].
      destruct (force_at_inv h C a i rc ns c I Ha Hn) as (h1 & b & ns1 & Qf & I1 & P1 & Ha1 & Hn1 & Pc). rewrite Qf, Ha1, Hn1. cbn [with_arc n_kids].
      pose proof (force_at_forced _ _ _ _ _ I Qf) as F1.
      assert (exists us, den h c (Node (n_prefix c) (n_value c) us)) as (us & Dc).
      { pose proof (dens_nth h ns ts i D) as Hx. rewrite Hn in Hx. destruct (nth_error ts i) as [[tp tv us]|]; [|easy].
        exists us. inversion Hx; subst; auto. }
      pose proof (dens_child_size _ _ _ _ _ _ _ _ D Hn Dc) as Lus. pose proof (Pc _ Dc) as Dc1. unfold with_arc in Dc1.
      inversion Dc1; subst. match goal with X : h_cell h1 b = Some (?r, ?n) |- _ => rename X into Hb; rename r into rb; rename n into nb end.
      match goal with X : dens h1 nb us |- _ => rename X into Db end.
      destruct (SP L h1 C b rb nb us w I1 Hb Db) as (h2 & w2 & p & Q2 & I2 & S2 & Lp); auto; try lia. rewrite Q2.
      assert (S01 : sstep L a (tsizes ts - 1) h w h1 w).
      { constructor; auto. - exists []. now rewrite app_nil_r. - exists []. simpl. repeat split; auto; try constructor; easy. }
      assert (F2 : forced h1 h2) by apply S2.
      destruct (F2 _ _ _ Ha1) as (ns2 & Ha2 & FS2).
      assert (Hn2 : nth_error ns2 i = Some (with_arc c b)).
      { clear - FS2 Hn1. revert i Hn1. induction FS2 as [|x y l l' X FS IH]; intros [|i] H; try discriminate; cbn in *; [|now apply IH].
        injection H as ->. f_equal. eapply fslot_arc; [|exact X]. reflexivity. }
      assert (Len2 : length ns2 = length ns).
      { rewrite <- (Forall2_len _ _ _ FS2). destruct (F1 _ _ _ Ha) as (ns1' & Ha1' & FS1). rewrite Ha1 in Ha1'. injection Ha1' as <-.
        symmetry. exact (Forall2_len _ _ _ FS1). }
      assert (S12 : sstep L a (tsizes ts - 1) h1 w h2 w2).
      { eapply sstep_up; [exact S2|lia|]. intros x Hx. eapply reach_below; [reflexivity|exact Ha2|eapply nth_error_In; exact Hn2|].
        inversion Hx; subst; [now constructor|]. eapply reach_below; eauto. }
      assert (D2 : dens h2 ns2 ts).
      { destruct (inv_den _ _ I2 _ _ _ Ha2) as (ts2 & D2). assert (X : den h (pin a) (Node [] None ts)) by (econstructor; eauto).
        apply P1, (ss_den _ _ _ _ _ _ _ S2) in X. assert (Y : den h2 (pin a) (Node [] None ts2)) by (econstructor; eauto).
        pose proof (proj1 (den_fun h2) _ _ X _ Y) as [= ->]. auto. }
      destruct (IH (S i) h2 C ns2 w2 I2 Ha2 D2) as (h3 & w3 & l & ns3 & Q3 & I3 & S3 & Ha3 & FD); try lia.
      { rewrite HL. symmetry. apply S2. }
      { eapply sstep_range; eauto. }
      rewrite Q3. cbn [with_arc n_prefix n_value]. exists h3, w3, ((n_prefix c, n_value c, p) :: l), ns3.
      split; auto. split; auto. split; [eapply sstep_trans; [exact S01|eapply sstep_trans; eauto]|]. split; auto.
      assert (Hn3 : nth_error ns3 i = Some (with_arc c b)).
      { destruct (ss_forced _ _ _ _ _ _ _ S3 _ _ _ Ha2) as (ns3' & Ha3' & FS3). rewrite Ha3 in Ha3'. injection Ha3' as <-.
        clear - FS3 Hn2. revert i Hn2. induction FS3 as [|x y l l' X FS IH]; intros [|i] H; try discriminate; cbn in *; [|now apply IH].
        injection H as ->. f_equal. eapply fslot_arc; [|exact X]. reflexivity. }
      rewrite (nth_split3 ns3 i _ Hn3), skipn_app. rewrite skipn_all2 by (rewrite firstn_length; lia). cbn [app].
      rewrite firstn_length, Nat.min_l by (apply Nat.lt_le_incl, nth_error_Some; congruence). rewrite Nat.sub_diag. cbn [skipn].
      constructor; auto. exists b, p. split; [reflexivity|]. split; [eapply look_stable; eauto|reflexivity].
  Qed.
  Lemma ser_ok F : ser_spec F.
  Proof.
    induction F as [|F IH]; intros L h C a rc ns ts w I Ha D HF HL HR; [lia|]. cbn [ser_arc].
    destruct (look (s_map w) a) as [p|] eqn:Qa.
    - exists h, w, p. split; auto. split; auto. split; auto. apply sstep_refl.
    - rewrite Ha. destruct (slots_ok F L a rc ts IH ltac:(lia) (length ns) 0 h C ns w I Ha D eq_refl HL HR) as (h1 & w1 & l & ns1 & Q & I1 & S & Ha1 & FD).
      rewrite Q. cbn [skipn] in FD. set (p := s_pos w1). unfold s_add, s_write. cbn [s_map s_out s_base].
      assert (Dp : den h1 (pin a) (Node [] None ts)) by (apply (ss_den _ _ _ _ _ _ _ S); econstructor; eauto).
      assert (Ts : ts <> [] \/ ts = []) by (destruct ts; auto; left; easy).
      assert (N1 : look (s_map w1) a = None).
      { destruct (look (s_map w1) a) as [q|] eqn:Qq; auto. exfalso. destruct (ss_new _ _ _ _ _ _ _ S) as (n & m & _ & _ & _ & A).
        rewrite m, look_app in Qq. destruct (look n a) as [q'|] eqn:Qn; [|congruence]. injection Qq as <-.
        destruct (A a q' (look_in _ _ _ Qn)) as (_ & _ & _ & (us & Du & Lu) & _). pose proof (proj1 (den_fun h1) _ _ Dp _ Du) as [= <-].
        destruct Ts as [Ts|Ts].
        - destruct ts as [|[]]; [easy|]. unfold tsizes in Lu. simpl in Lu. lia.
        - subst ts. inversion D; subst. simpl in Q. injection Q as <- <- <-. clear - Qa m Qn. rewrite <- (app_nil_l (s_map w)) in m at 1. apply app_inv_tail in m. subst n. discriminate. }
      rewrite N1. set (w2 := MkS ((a, p) :: s_map w1) (s_out w1 ++ [RVec (map (resolve p) l)]) (s_base w1)).
      exists h1, w2, p. split; auto. split; auto. split; [|cbn; now rewrite Nat.eqb_refl].
      assert (S2 : sstep L a (tsizes ts) h1 w1 h1 w2).
      { constructor; auto using forced_refl.
        - eexists. reflexivity.
        - exists [(a, p)]. cbn [w2 s_map s_out length app map fst snd]. rewrite app_length. cbn [length]. split; auto. split; [lia|].
          split; [repeat constructor; easy|]. split; [repeat constructor; easy|]. intros x q [[= <- <-]|[]].
          split; [unfold p, s_pos; cbn [w2 s_base s_out]; rewrite app_length; cbn; lia|]. split; auto. split; [now constructor|].
          split; [eauto|]. exists rc, ns1, (map (resolve p) l). split; auto.
          assert (Hp : length (L ++ s_out w1) = p).
          { unfold p, s_pos. rewrite app_length, HL. f_equal. symmetry. apply S. }
          split.
          { rewrite app_assoc, nth_error_app2 by lia. now rewrite Hp, Nat.sub_diag. }
          pose proof (sstep_range _ _ _ _ _ _ _ S HR) as R1. clear - FD R1 N1 p w2. induction FD as [|c x ns l (b & q & Qb & Hb & ->) FD IH]; [constructor|].
          cbn [map]. constructor; auto. exists b, q. split; auto. split.
          { cbn [w2 s_map look]. destruct (Nat.eqb_spec a b) as [->|]; [congruence|auto]. }
          split; [apply (R1 _ _ Hb)|reflexivity]. }
      eapply sstep_trans; [|exact S2]. eapply sstep_up; [exact S|lia|auto].
  Qed.
  Lemma nodup_fst {X Y} (l : list (X * Y)) x y z : NoDup (map fst l) -> In (x, y) l -> In (x, z) l -> y = z.
  Proof.
    induction l as [|[u v] l IH]; intros N A B; [easy|]. cbn in N. inversion N as [|? ? N1 N2]; subst.
    destruct A as [A|A], B as [B|B]; [injection A as -> ->; now injection B|injection A as -> ->|injection B as -> ->|auto].
    - exfalso. apply N1. change x with (fst (x, z)). now apply in_map.
    - exfalso. apply N1. change x with (fst (x, y)). now apply in_map.
  Qed.
  Lemma nodup_snd {X Y} (l : list (X * Y)) x y z : NoDup (map snd l) -> In (y, x) l -> In (z, x) l -> y = z.
  Proof.
    induction l as [|[u v] l IH]; intros N A B; [easy|]. cbn in N. inversion N as [|? ? N1 N2]; subst.
    destruct A as [A|A], B as [B|B]; [injection A as -> ->; now injection B|injection A as -> ->|injection B as -> ->|auto].
    - exfalso. apply N1. change x with (snd (z, x)). now apply in_map.
    - exfalso. apply N1. change x with (snd (y, x)). now apply in_map.
  Qed.
  (** ** Every registered vector has a record that mirrors it, and no two have the same *)
  Definition mirrored h (m : list (nat * nat)) g : Prop :=
    (forall a p, look m a = Some p -> mirror h m g a p) /\ (forall a b p, look m a = Some p -> look m b = Some p -> a = b).
  Lemma mirror_kids h m g a p rc ns : mirror h m g a p -> h_cell h a = Some (rc, ns) -> forall c, In c ns -> exists b, n_kids c = inr b /\ look m b <> None.
  Proof.
    intros (rc' & ns' & l & Ha & _ & F) H c Hc. rewrite H in Ha. injection Ha as <- <-.
    destruct (Forall2_in _ _ _ _ F Hc) as (x & _ & b & q & Q & Lb & _). exists b. split; auto. congruence.
  Qed.
  Lemma fslots_arcs ns ns' : (forall c, In c ns -> exists b, n_kids c = inr b) -> Forall2 fslot ns ns' -> ns' = ns.
  Proof.
    intros A F. induction F as [|n n' ns ns' X F IH]; auto. f_equal; [|apply IH; intros c Hc; apply A; now right].
    destruct (A n) as (b & Q); [now left|]. eapply fslot_arc; eauto.
  Qed.
  Lemma mirrored_stays h h' m g : (forall a p rc ns, look m a = Some p -> h_cell h a = Some (rc, ns) ->
      exists rc' ns', h_cell h' a = Some (rc', ns') /\ Forall2 fslot ns ns') -> mirrored h m g -> mirrored h' m g.
  Proof.
    intros X [M J]. split; auto. intros a p Hp. pose proof (M _ _ Hp) as Mi. destruct (M _ _ Hp) as (rc & ns & l & Ha & Hn & F).
    destruct (X _ _ _ _ Hp Ha) as (rc' & ns' & Ha' & Fs). rewrite (fslots_arcs ns ns') in Ha'; auto.
    - exists rc', ns, l. auto.
    - intros c Hc. destruct (mirror_kids _ _ _ _ _ _ _ Mi Ha c Hc) as (b & Q & _). eauto.
  Qed.
  Lemma mirrored_app h m g e : mirrored h m g -> mirrored h m (g ++ e).
  Proof. intros [M J]. split; auto. intros a p Hp. eapply mirror_mono; [apply forced_refl|eauto|auto]. Qed.
  Lemma sstep_mirrored L a B h w h' w' : sstep L a B h w h' w' -> in_range w -> mirrored h (s_map w) (L ++ s_out w) -> mirrored h' (s_map w') (L ++ s_out w').
  Proof.
    intros S R [M J]. pose proof (fun x q => look_stable _ _ _ _ _ _ _ x q S) as St.
    destruct S as [d f b (e & o) (n & m & k & N & N2 & A)]. split.
    - intros x q Hx. pose proof Hx as Hx0. rewrite m, look_app in Hx. destruct (look n x) as [q'|] eqn:Q.
      + injection Hx as <-. apply (A x q' (look_in _ _ _ Q)).
      + rewrite o, app_assoc. eapply mirror_mono; [exact f|exact St|auto].
    - intros x y q Hx Hy. rewrite m, look_app in Hx, Hy. destruct (look n x) as [q1|] eqn:Q1, (look n y) as [q2|] eqn:Q2.
      + injection Hx as ->. injection Hy as ->. eapply (nodup_snd n q); eauto using look_in.
      + injection Hx as ->. destruct (A x q (look_in _ _ _ Q1)) as (? & _). specialize (R _ _ Hy). lia.
      + injection Hy as ->. destruct (A y q (look_in _ _ _ Q2)) as (? & _). specialize (R _ _ Hx). lia.
      + eauto.
  Qed.
End PersistFacts.

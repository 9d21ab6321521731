(** Reference counts are exact, and the heap machine refines value semantics. *)
From Coq Require Import Permutation.
From Verif Require Export HeapSpec.

Scheme den_mut := Induction for den Sort Prop with dens_mut := Induction for dens Sort Prop.
Combined Scheme den_dens_ind from den_mut, dens_mut.

Section Facts.
  Context {K V : Type}.
  Notation tree := (rtree K V).
  Notation node := (node K V).
  Notation heap := (heap K V).
  Implicit Types (h : heap) (ns : list node) (ts : list tree).

  (** ** Counting references *)
  Definition ref (a : nat) (n : node) : nat := match n_kids n with inr b => if b =? a then 1 else 0 | inl _ => 0 end.
  Definition cnt (a : nat) (l : list node) : nat := list_sum (map (ref a) l).
  Definition ccnt (h : heap) (a b : nat) : nat := match h_cell h b with Some (_, ns) => cnt a ns | None => 0 end.
  Definition hrefs (h : heap) (a : nat) : nat := list_sum (map (ccnt h a) (seq 0 (h_next h))).

  Lemma cnt_app a l m : cnt a (l ++ m) = cnt a l + cnt a m.
  Proof. unfold cnt. now rewrite map_app, list_sum_app. Qed.
  Lemma cnt_cons a n l : cnt a (n :: l) = ref a n + cnt a l.
  Proof. reflexivity. Qed.
  Lemma cnt_perm a l m : Permutation l m -> cnt a l = cnt a m.
  Proof. induction 1; rewrite ?cnt_cons; lia. Qed.

  Lemma sum_ext (f g : nat -> nat) l : (forall x, In x l -> f x = g x) -> list_sum (map f l) = list_sum (map g l).
  Proof. intros H. f_equal. now apply map_ext_in. Qed.
  Lemma sum_upd (f g : nat -> nat) b n : b < n -> (forall x, x <> b -> f x = g x) ->
    list_sum (map f (seq 0 n)) + g b = list_sum (map g (seq 0 n)) + f b.
  Proof.
    intros Hb H. induction n as [|n IH]; [lia|]. rewrite seq_S, !map_app, !list_sum_app. simpl.
    destruct (Nat.eq_dec b n) as [->|N].
    - rewrite (sum_ext f g); [lia|]. intros x Hx. apply in_seq in Hx. apply H. lia.
    - specialize (IH ltac:(lia)). rewrite (H n) by lia. lia.
  Qed.
  Lemma sum_ge (f : nat -> nat) n b : b < n -> f b <= list_sum (map f (seq 0 n)).
  Proof.
    intros Hb. induction n as [|n IH]; [lia|]. rewrite seq_S, map_app, list_sum_app. simpl.
    destruct (Nat.eq_dec b n) as [->|N]; [lia|]. specialize (IH ltac:(lia)). lia.
  Qed.
  Lemma sum_pos (f : nat -> nat) l : 0 < list_sum (map f l) -> exists x, In x l /\ 0 < f x.
  Proof.
    induction l as [|x l IH]; simpl; [lia|]. intros H. destruct (f x) eqn:Q.
    - destruct IH as (y & Hy & Hp); [lia|]. eauto.
    - exists x. split; [auto|]. lia.
  Qed.

  Lemma upd_same (h : heap) a c : h_cell (h_upd h a c) a = c.
  Proof. cbn. now rewrite Nat.eqb_refl. Qed.
  Lemma upd_other (h : heap) a c b : b <> a -> h_cell (h_upd h a c) b = h_cell h b.
  Proof. cbn. intros N. now apply Nat.eqb_neq in N as ->. Qed.
  Lemma hrefs_upd h b c a : b < h_next h ->
    hrefs (h_upd h b c) a + ccnt h a b = hrefs h a + match c with Some (_, ns) => cnt a ns | None => 0 end.
  Proof.
    intros Hb. unfold hrefs. cbn [h_next h_upd].
    rewrite (sum_upd (ccnt (h_upd h b c) a) (ccnt h a) b) by (auto; intros x Hx; unfold ccnt; now rewrite upd_other).
    f_equal. unfold ccnt. now rewrite upd_same.
  Qed.
  Lemma hrefs_new h ns a : (forall b, h_next h <= b -> h_cell h b = None) ->
    hrefs (fst (arc_new h ns)) a = hrefs h a + cnt a ns.
  Proof.
    intros Hn. unfold hrefs, arc_new. cbn [fst h_next]. rewrite seq_S, map_app, list_sum_app. simpl. f_equal.
    - apply sum_ext. intros x Hx. apply in_seq in Hx. unfold ccnt. cbn [h_cell].
      replace (x =? h_next h) with false; auto. symmetry. apply Nat.eqb_neq. lia.
    - unfold ccnt. cbn [h_cell]. rewrite Nat.eqb_refl. lia.
  Qed.

  (** ** The invariant: [C] lists every node that is not inside a vector *)
  Record Inv (h : heap) (C : list node) : Prop := {
    inv_bound : forall b, h_next h <= b -> h_cell h b = None;
    inv_count : forall a, match h_cell h a with
                          | Some (rc, _) => rc = cnt a C + hrefs h a /\ 0 < rc
                          | None => cnt a C + hrefs h a = 0
                          end;
    inv_den : forall a rc ns, h_cell h a = Some (rc, ns) -> exists ts, dens h ns ts }.

  Lemma inv_perm h C D : Permutation C D -> Inv h C -> Inv h D.
  Proof.
    intros P [B R W]. constructor; auto. intros a. specialize (R a). now rewrite (cnt_perm a _ _ P) in R.
  Qed.
  Lemma inv_lt h C a c : Inv h C -> h_cell h a = Some c -> a < h_next h.
  Proof. intros I H. destruct (Nat.lt_ge_cases a (h_next h)); auto. rewrite (inv_bound _ _ I) in H by auto. discriminate. Qed.
  Lemma inv_live h C a : Inv h C -> 0 < cnt a C + hrefs h a -> exists rc ns, h_cell h a = Some (S rc, ns) /\ S rc = cnt a C + hrefs h a.
  Proof.
    intros I H. pose proof (inv_count _ _ I a) as R. destruct (h_cell h a) as [[rc ns]|]; [|lia].
    destruct R as [R P]. destruct rc; [lia|]. eauto.
  Qed.
  Lemma ref_self a p v : ref a (MkN p v (inr a)) = 1.
  Proof. unfold ref. cbn. now rewrite Nat.eqb_refl. Qed.
  Lemma ref_arc a n b : n_kids n = inr b -> ref a n = if b =? a then 1 else 0.
  Proof. unfold ref. now intros ->. Qed.
  Lemma cnt_In a n l : In n l -> n_kids n = inr a -> 0 < cnt a l.
  Proof.
    intros Hin Hk. induction l as [|m l IH]; [easy|]. rewrite cnt_cons. destruct Hin as [->|Hin].
    - rewrite (ref_arc _ _ _ Hk), Nat.eqb_refl. lia.
    - specialize (IH Hin). lia.
  Qed.
  Lemma cnt_0 a l : cnt a l = 0 -> forall n, In n l -> n_kids n <> inr a.
  Proof. intros H n Hn Hk. pose proof (cnt_In _ _ _ Hn Hk). lia. Qed.
  Lemma inv_cell_live h C b rc ns n a : Inv h C -> h_cell h b = Some (rc, ns) -> In n ns -> n_kids n = inr a -> 0 < hrefs h a.
  Proof.
    intros I Hb Hn Hk. pose proof (inv_lt _ _ _ _ I Hb) as Hlt.
    pose proof (sum_ge (ccnt h a) (h_next h) b Hlt) as H. unfold hrefs. unfold ccnt in H at 1. rewrite Hb in H.
    pose proof (cnt_In _ _ _ Hn Hk). lia.
  Qed.

  (** ** Denotations *)
  Lemma den_fun h : (forall n t, den h n t -> forall t', den h n t' -> t = t') /\
                    (forall ns ts, dens h ns ts -> forall ts', dens h ns ts' -> ts = ts').
  Proof.
    apply den_dens_ind.
    - intros p v ts t' H. now inversion H.
    - intros p v a rc ns ts Hc _ IH t' H. inversion H; subst. f_equal. apply IH. congruence.
    - intros ts' H. now inversion H.
    - intros n t ns ts _ IH1 _ IH2 ts' H. inversion H; subst. f_equal; auto.
  Qed.
  Lemma dens_app h l m ts : dens h (l ++ m) ts <-> exists t1 t2, ts = t1 ++ t2 /\ dens h l t1 /\ dens h m t2.
  Proof.
    revert ts. induction l as [|n l IH]; intros ts; simpl.
    - split; [intros H; exists [], ts; repeat split; auto; constructor|]. intros (t1 & t2 & -> & H1 & H2). now inversion H1.
    - split.
      + intros H. inversion H; subst. apply IH in H4 as (t1 & t2 & -> & H1 & H2'). exists (t :: t1), t2. repeat split; auto. now constructor.
      + intros (t1 & t2 & -> & H1 & H2). inversion H1; subst. simpl. constructor; auto. apply IH. eauto.
  Qed.
  Lemma dens_In h ns ts n : dens h ns ts -> In n ns -> exists t, In t ts /\ den h n t.
  Proof. induction 1; simpl; [easy|]. intros [<-|Hn]; [eauto|]. destruct (IHdens Hn) as (u & Hu & D). eauto. Qed.
  Lemma dens_all h ns : (forall n, In n ns -> exists t, den h n t) -> exists ts, dens h ns ts.
  Proof.
    induction ns as [|n ns IH]; intros H; [exists []; constructor|].
    destruct (H n (or_introl eq_refl)) as (t & D). destruct IH as (ts & Ds); [intros m Hm; apply H; now right|].
    exists (t :: ts). now constructor.
  Qed.
  Lemma dens_length h ns ts : dens h ns ts -> length ns = length ts.
  Proof. induction 1; simpl; auto. Qed.
  Lemma dens_nth h ns ts i : dens h ns ts ->
    match nth_error ns i, nth_error ts i with Some n, Some t => den h n t | None, None => True | _, _ => False end.
  Proof. intros H. revert i. induction H; intros [|i]; simpl; auto. apply IHdens. Qed.
  Lemma dens_mono h h' ns ts : (forall n t, In n ns -> den h n t -> den h' n t) -> dens h ns ts -> dens h' ns ts.
  Proof. intros H D. induction D; constructor; [apply H; simpl; auto|]. apply IHD. intros m u Hm. apply H. now right. Qed.

  (** the contents of every live vector survive *)
  Definition extends (h h' : heap) : Prop := forall b rc ns, h_cell h b = Some (rc, ns) -> exists rc', h_cell h' b = Some (rc', ns).
  Lemma extends_refl h : extends h h.
  Proof. intros b rc ns H. eauto. Qed.
  Lemma extends_trans h1 h2 h3 : extends h1 h2 -> extends h2 h3 -> extends h1 h3.
  Proof. intros A B b rc ns H. apply A in H as (rc' & H). apply B in H as (rc2 & H). eauto. Qed.
  (** and the counts do not fall *)
  Definition grows (h h' : heap) : Prop := forall b rc ns, h_cell h b = Some (rc, ns) -> exists rc', h_cell h' b = Some (rc', ns) /\ rc <= rc'.
  Lemma grows_ext h h' : grows h h' -> extends h h'.
  Proof. intros G b rc ns H. apply G in H as (rc' & H & _). eauto. Qed.
  Lemma grows_refl h : grows h h.
  Proof. intros b rc ns H. eauto. Qed.
  Lemma grows_trans h1 h2 h3 : grows h1 h2 -> grows h2 h3 -> grows h1 h3.
  Proof. intros A B b rc ns H. apply A in H as (rc' & H & L1). apply B in H as (rc2 & H & L2). exists rc2. split; auto. lia. Qed.
  Lemma den_ext h h' : extends h h' -> (forall n t, den h n t -> den h' n t) /\ (forall ns ts, dens h ns ts -> dens h' ns ts).
  Proof.
    intros X. apply den_dens_ind; intros; try now constructor.
    apply X in e as (rc' & Hc). econstructor; eauto.
  Qed.
  (** a vector nothing refers to may go *)
  Lemma den_del h a c : (forall b rc ns n, h_cell h b = Some (rc, ns) -> In n ns -> b <> a -> n_kids n <> inr a) ->
    (forall n t, den h n t -> n_kids n <> inr a -> den (h_upd h a c) n t) /\
    (forall ns ts, dens h ns ts -> (forall n, In n ns -> n_kids n <> inr a) -> dens (h_upd h a c) ns ts).
  Proof.
    intros X. apply den_dens_ind.
    - intros. constructor.
    - intros p v b rc ns ts Hc D IH N. assert (b <> a) by (cbn in N; congruence).
      econstructor; [rewrite upd_other; eauto|]. apply IH. intros n Hn. eapply X; eauto.
    - intros. constructor.
    - intros n t ns ts D IH1 Ds IH2 N. constructor; [apply IH1, N; simpl; auto|]. apply IH2. intros m Hm. apply N. now right.
  Qed.
  Lemma inv_den_node h C n : Inv h C -> In n C -> exists t, den h n t.
  Proof.
    intros I Hn. destruct n as [p v [ts|a]]; [eexists; constructor|].
    destruct (inv_live h C a I) as (rc & ns & Hc & _).
    - pose proof (cnt_In a _ C Hn eq_refl). lia.
    - destruct (inv_den _ _ I _ _ _ Hc) as (ts & D). eexists. econstructor; eauto.
  Qed.
  Lemma inv_dens h C ns : Inv h C -> incl ns C -> exists ts, dens h ns ts.
  Proof. intros I H. apply dens_all. intros n Hn. eapply inv_den_node; eauto. Qed.

  (** ** Primitives *)
  Lemma new_grows h ns : (forall b, h_next h <= b -> h_cell h b = None) -> grows h (fst (arc_new h ns)).
  Proof.
    intros B b rc ms H. exists rc. split; auto. cbn. destruct (Nat.eqb_spec b (h_next h)) as [->|N]; auto. rewrite B in H; [discriminate|lia].
  Qed.
  Lemma new_inv h ns C p v h' a : Inv h (ns ++ C) -> arc_new h ns = (h', a) ->
    Inv h' (MkN p v (inr a) :: C) /\ grows h h' /\ h_cell h' a = Some (1, ns) /\ h_cell h a = None /\ h_next h <= h_next h'.
  Proof.
    intros I Q. pose proof (inv_bound _ _ I) as B. pose proof (new_grows h ns B) as G. rewrite Q in G. cbn [fst] in G. pose proof (grows_ext _ _ G) as X.
    assert (Qa : a = h_next h) by (now injection Q). assert (Qn : h_next h' = S (h_next h)) by (now injection Q as <- _).
    assert (Hc : forall b, h_cell h' b = if b =? a then Some (1, ns) else h_cell h b) by (injection Q as <- <-; reflexivity).
    assert (Hr : forall b, hrefs h' b = hrefs h b + cnt b ns) by (intros b; rewrite <- (hrefs_new h ns b B), Q; reflexivity).
    assert (Ha : h_cell h a = None) by (apply B; lia).
    split; [|split; [auto|split; [rewrite Hc, Nat.eqb_refl; auto|split; [auto|lia]]]].
    constructor.
    - intros b Hb. rewrite Hc. destruct (Nat.eqb_spec b a); [lia|]. apply B. lia.
    - intros b. rewrite Hc, Hr, cnt_cons. pose proof (inv_count _ _ I b) as R. rewrite cnt_app in R.
      destruct (Nat.eqb_spec b a) as [->|N].
      + rewrite Ha in R. rewrite ref_self. lia.
      + unfold ref. cbn [n_kids]. replace (a =? b) with false by (symmetry; apply Nat.eqb_neq; lia).
        destruct (h_cell h b) as [[rc ms]|]; lia.
    - intros b rc ms. rewrite Hc. destruct (Nat.eqb_spec b a).
      + intros [= <- <-]. destruct (inv_dens h _ ns I) as (ts & D); [intros m Hm; apply in_or_app; now left|].
        exists ts. now apply (den_ext h h' X).
      + intros Hb. destruct (inv_den _ _ I _ _ _ Hb) as (ts & D). exists ts. now apply (den_ext h h' X).
  Qed.

  (** change of the count only *)
  Lemma rc_extends h a rc rc' ns : h_cell h a = Some (rc, ns) -> extends h (h_upd h a (Some (rc', ns))).
  Proof.
    intros Ha b r ms Hb. destruct (Nat.eq_dec b a) as [->|N].
    - rewrite upd_same. replace ms with ns by congruence. eauto.
    - rewrite upd_other by auto. eauto.
  Qed.
  Lemma rc_inv h C D a rc rc' ns : Inv h C -> h_cell h a = Some (rc, ns) -> 0 < rc' ->
    rc' + cnt a C = rc + cnt a D -> (forall b, b <> a -> cnt b C = cnt b D) ->
    Inv (h_upd h a (Some (rc', ns))) D.
  Proof.
    intros I Ha P Hs Ho. pose proof (inv_lt _ _ _ _ I Ha) as Hlt.
    assert (Hr : forall b, hrefs (h_upd h a (Some (rc', ns))) b = hrefs h b).
    { intros b. pose proof (hrefs_upd h a (Some (rc', ns)) b Hlt) as E. unfold ccnt in E at 1. rewrite Ha in E. lia. }
    constructor.
    - intros b Hb. cbn [h_upd h_next] in Hb. rewrite upd_other by lia. now apply (inv_bound _ _ I).
    - intros b. rewrite Hr. pose proof (inv_count _ _ I b) as R. destruct (Nat.eq_dec b a) as [->|N].
      + rewrite upd_same. rewrite Ha in R. lia.
      + rewrite upd_other by auto. now rewrite <- Ho.
    - intros b r ms Hb. destruct (Nat.eq_dec b a) as [->|N].
      + rewrite upd_same in Hb. injection Hb as <- <-. destruct (inv_den _ _ I _ _ _ Ha) as (ts & Dn). exists ts.
        now apply (den_ext h _ (rc_extends _ _ _ _ _ Ha)).
      + rewrite upd_other in Hb by auto. destruct (inv_den _ _ I _ _ _ Hb) as (ts & Dn). exists ts.
        now apply (den_ext h _ (rc_extends _ _ _ _ _ Ha)).
  Qed.
  Lemma arc_clone_inv h C a p v : Inv h C -> 0 < cnt a C + hrefs h a ->
    exists h', arc_clone h a = Some h' /\ Inv h' (MkN p v (inr a) :: C) /\ grows h h'.
  Proof.
    intros I L. destruct (inv_live h C a I L) as (rc & ns & Ha & _). unfold arc_clone. rewrite Ha. eexists. split; [reflexivity|]. split.
    - eapply rc_inv; eauto; [lia|rewrite cnt_cons, ref_self; lia|]. intros b N. rewrite cnt_cons. unfold ref. cbn.
      replace (a =? b) with false by (symmetry; apply Nat.eqb_neq; auto). reflexivity.
    - intros b r ms Hb. destruct (Nat.eq_dec b a) as [->|N]; [rewrite upd_same|rewrite upd_other by auto; eauto].
      exists (S (S rc)). split; [congruence|]. assert (r = S rc) by congruence. lia.
  Qed.
  (** a node lies in [C] or in some vector *)
  Definition present (h : heap) (C : list node) (n : node) : Prop :=
    In n C \/ exists b rc ns, h_cell h b = Some (rc, ns) /\ In n ns.
  Lemma present_live h C n a : Inv h C -> present h C n -> n_kids n = inr a -> 0 < cnt a C + hrefs h a.
  Proof.
    intros I [Hn|(b & rc & ns & Hb & Hn)] Hk.
    - pose proof (cnt_In _ _ _ Hn Hk). lia.
    - pose proof (inv_cell_live _ _ _ _ _ _ _ I Hb Hn Hk). lia.
  Qed.
  Lemma node_clone_inv h C n : Inv h C -> present h C n ->
    exists h', node_clone h n = Some (h', n) /\ Inv h' (n :: C) /\ grows h h'.
  Proof.
    intros I P. unfold node_clone. destruct n as [p v [ts|a]]; cbn [n_kids].
    - exists h. split; auto. split; [|apply grows_refl]. destruct I as [B R W]. constructor; auto.

    - destruct (arc_clone_inv h C a p v I) as (h' & -> & I' & X); eauto. eapply present_live; eauto.
  Qed.
  Lemma present_ext h h' C D n : extends h h' -> incl C D -> present h C n -> present h' D n.
  Proof. intros X S [Hn|(b & rc & ns & Hb & Hn)]; [left; auto|]. apply X in Hb as (rc' & Hb). right. eauto 6. Qed.
  Lemma nodes_clone_inv ns : forall h C, Inv h C -> (forall n, In n ns -> present h C n) ->
    exists h', nodes_clone h ns = Some (h', ns) /\ Inv h' (ns ++ C) /\ grows h h'.
  Proof.
    induction ns as [|n ns IH]; intros h C I P; cbn [nodes_clone].
    - exists h. split; auto. split; auto. apply grows_refl.
    - destruct (node_clone_inv h C n I) as (h1 & -> & I1 & X1); [apply P; now left|].
      destruct (IH h1 (n :: C) I1) as (h2 & -> & I2 & X2).
      { intros m Hm. apply (present_ext h _ C); [now apply grows_ext| |]; [intros x; now right|]. apply P. now right. }
      exists h2. split; auto. split; [|eapply grows_trans; eauto].
      eapply inv_perm; [|exact I2]. simpl. apply Permutation_sym, Permutation_middle.
  Qed.

  Lemma make_mut_inv h C p v a : Inv h (MkN p v (inr a) :: C) ->
    exists h' a' ns rc, make_mut h a = Some (h', a') /\ Inv h' (MkN p v (inr a') :: C) /\ extends h h' /\
      h_cell h a = Some (rc, ns) /\ h_cell h' a' = Some (1, ns).
  Proof.
    intros I. destruct (inv_live h _ a I) as (rc & ns & Ha & Hrc); [rewrite cnt_cons, ref_self; lia|].
    unfold make_mut. rewrite Ha. destruct rc as [|rc].
    - exists h, a, ns, 1. split; auto. split; auto. split; [apply extends_refl|]. auto.
    - destruct (nodes_clone_inv ns h _ I) as (h1 & -> & I1 & X1); [intros n Hn; right; eauto 6|].
      destruct (arc_new h1 ns) as [h2 a'] eqn:Q.
      destruct (new_inv h1 ns _ p v h2 a' I1 Q) as (I2 & X2 & Hc & Hn & _).
      pose proof (grows_trans _ _ _ X1 X2) as X. destruct (X _ _ _ Ha) as (rc2 & Ha2 & Hle). rewrite Ha2.
      assert (N : a' <> a) by (intros ->; destruct (X1 _ _ _ Ha) as (? & ? & _); congruence).
      destruct rc2 as [|[|rc2]]; [lia|lia|].
      exists (h_upd h2 a (Some (S rc2, ns))), a', ns, (S (S rc)). split; auto. split; [|split; [|split; [auto|rewrite upd_other; auto]]].
      + eapply rc_inv; eauto; [lia|rewrite !cnt_cons, ref_self; lia|]. intros b Nb. rewrite !cnt_cons. unfold ref at 2. cbn [n_kids].
        replace (a =? b) with false by (symmetry; apply Nat.eqb_neq; auto). reflexivity.
      + eapply extends_trans; [apply grows_ext; eauto|]. eapply rc_extends; eauto.
  Qed.

  (** ** Borrowing a vector that has one owner *)
  Definition pres (h h' : heap) (C : list node) : Prop := forall m t, In m C -> den h m t -> den h' m t.
  Lemma pres_ext h h' C : extends h h' -> pres h h' C.
  Proof. intros X m t _. apply (den_ext h h' X). Qed.
  Lemma pres_trans h1 h2 h3 C : pres h1 h2 C -> pres h2 h3 C -> pres h1 h3 C.
  Proof. intros A B m t Hm D. apply B; auto. Qed.
  Lemma pres_incl h h' C D : incl D C -> pres h h' C -> pres h h' D.
  Proof. intros I A m t Hm. apply A. auto. Qed.
  Lemma pres_dens h h' C ns ts : incl ns C -> pres h h' C -> dens h ns ts -> dens h' ns ts.
  Proof. intros I P. apply dens_mono. intros m t Hm. apply P. auto. Qed.

  Lemma borrow_inv h C p v a ns : Inv h (MkN p v (inr a) :: C) -> h_cell h a = Some (1, ns) ->
    Inv (h_upd h a None) (ns ++ C) /\ pres h (h_upd h a None) (ns ++ C) /\ a < h_next h.
  Proof.
    intros I Ha. pose proof (inv_lt _ _ _ _ I Ha) as Hlt. pose proof (inv_count _ _ I a) as R. rewrite Ha, cnt_cons, ref_self in R.
    assert (R1 : cnt a C = 0) by lia. assert (R2 : hrefs h a = 0) by lia.
    assert (X : forall b rc ms n, h_cell h b = Some (rc, ms) -> In n ms -> n_kids n <> inr a).
    { intros b rc ms n Hb Hn Hk. pose proof (inv_cell_live _ _ _ _ _ _ _ I Hb Hn Hk). lia. }
    assert (D : forall m t, n_kids m <> inr a -> den h m t -> den (h_upd h a None) m t).
    { intros m t N Dm. apply (den_del h a None); auto. intros; eauto. }
    split; [|split; [|auto]].
    - constructor.
      + intros b Hb. cbn [h_upd h_next] in Hb. rewrite upd_other by lia. now apply (inv_bound _ _ I).
      + intros b. pose proof (hrefs_upd h a None b Hlt) as E. unfold ccnt in E at 1. rewrite Ha in E.
        pose proof (inv_count _ _ I b) as Rb. rewrite cnt_cons in Rb. rewrite cnt_app. destruct (Nat.eq_dec b a) as [->|N].
        * rewrite upd_same. lia.
        * rewrite upd_other by auto. unfold ref in Rb. cbn [n_kids] in Rb.
          replace (a =? b) with false in Rb by (symmetry; apply Nat.eqb_neq; auto).
          destruct (h_cell h b) as [[rc ms]|]; lia.
      + intros b rc ms Hb. assert (b <> a) by (intros ->; rewrite upd_same in Hb; discriminate). rewrite upd_other in Hb by auto.
        destruct (inv_den _ _ I _ _ _ Hb) as (ts & Ds). exists ts. eapply dens_mono; [|exact Ds]. intros m t Hm. apply D. eauto.
    - intros m t Hm. apply D. apply in_app_or in Hm as [Hm|Hm]; [eauto|]. eapply cnt_0; eauto.
  Qed.
  Lemma giveback_inv h C p v a ns : Inv h (ns ++ C) -> h_cell h a = None -> a < h_next h ->
    Inv (h_upd h a (Some (1, ns))) (MkN p v (inr a) :: C) /\ extends h (h_upd h a (Some (1, ns))).
  Proof.
    intros I Ha Hlt. assert (X : extends h (h_upd h a (Some (1, ns)))).
    { intros b rc ms Hb. exists rc. rewrite upd_other; auto. congruence. }
    split; auto. constructor.
    - intros b Hb. cbn [h_upd h_next] in Hb. rewrite upd_other by lia. now apply (inv_bound _ _ I).
    - intros b. pose proof (hrefs_upd h a (Some (1, ns)) b Hlt) as E. unfold ccnt in E at 1. rewrite Ha in E.
      pose proof (inv_count _ _ I b) as Rb. rewrite cnt_app in Rb. rewrite cnt_cons. destruct (Nat.eq_dec b a) as [->|N].
      + rewrite upd_same, ref_self. rewrite Ha in Rb. lia.
      + rewrite upd_other by auto. unfold ref. cbn [n_kids]. replace (a =? b) with false by (symmetry; apply Nat.eqb_neq; auto).
        destruct (h_cell h b) as [[rc ms]|]; lia.
    - intros b rc ms Hb. destruct (Nat.eq_dec b a) as [->|N].
      + rewrite upd_same in Hb. injection Hb as <- <-. destruct (inv_dens h _ ns I) as (ts & D); [intros m Hm; apply in_or_app; now left|].
        exists ts. now apply (den_ext h _ X).
      + rewrite upd_other in Hb by auto. destruct (inv_den _ _ I _ _ _ Hb) as (ts & D). exists ts. now apply (den_ext h _ X).
  Qed.

  (** ** Drop *)
  Lemma inv_inl h C p v ts : Inv h (MkN p v (inl ts) :: C) <-> Inv h C.
  Proof. split; intros [B R W]; constructor; auto; intros b; exact (R b). Qed.
  Lemma inv_kids h C n m : n_kids n = n_kids m -> Inv h (n :: C) -> Inv h (m :: C).
  Proof.
    intros Q [B R W]. constructor; auto. intros b. specialize (R b). rewrite cnt_cons in *.
    replace (ref b m) with (ref b n); auto. unfold ref. now rewrite Q.
  Qed.
  Lemma nodes_upd h a rc ns c : h_cell h a = Some (rc, ns) -> a < h_next h ->
    h_nodes (h_upd h a c) + length ns = h_nodes h + match c with Some (_, ms) => length ms | None => 0 end.
  Proof.
    intros Ha Hlt. unfold h_nodes. cbn [h_next h_upd].
    pose proof (sum_upd (cell_len (h_upd h a c)) (cell_len h) a (h_next h) Hlt) as E.
    rewrite <- (f_equal (fun c => match c with Some (_, ms) => length ms | None => 0 end) (upd_same h a c)).
    unfold cell_len in E at 2 4. rewrite Ha in E. apply E. intros x Hx. unfold cell_len. now rewrite upd_other.
  Qed.
  Lemma drop_inv fuel : forall h work C, Inv h (work ++ C) -> length work + h_nodes h < fuel ->
    exists h', drop_loop fuel h work = Some h' /\ Inv h' C /\ pres h h' C.
  Proof.
    induction fuel as [|fuel IH]; intros h work C I Hf; [lia|]. cbn [drop_loop].
    destruct work as [|n work]; [exists h; split; auto; split; auto; now intros m t|].
    cbn [length app] in *. destruct n as [p v [ts|a]]; cbn [n_kids].
    - apply inv_inl in I. apply IH; auto. lia.
    - destruct (inv_live h _ a I) as (rc & ns & Ha & Hrc); [rewrite cnt_cons, ref_self; lia|]. rewrite Ha.
      pose proof (inv_lt _ _ _ _ I Ha) as Hlt. destruct rc as [|rc].
      + destruct (borrow_inv _ _ _ _ _ _ I Ha) as (I' & P & _). rewrite app_assoc in I'.
        pose proof (nodes_upd h a _ ns None Ha Hlt) as Hn. cbn iota in Hn.
        destruct (IH (h_upd h a None) (ns ++ work) C I') as (h' & -> & I2 & P2); [rewrite app_length; lia|].
        exists h'. split; auto. split; auto. eapply pres_trans; [|exact P2]. eapply pres_incl; [|exact P].
        intros m Hm. apply in_or_app. right. apply in_or_app. now right.
      + pose proof (nodes_upd h a _ ns (Some (S rc, ns)) Ha Hlt) as Hn. cbn iota in Hn.
        destruct (IH (h_upd h a (Some (S rc, ns))) work C) as (h' & -> & I2 & P2); [|lia|].
        { apply (rc_inv h (MkN p v (inr a) :: work ++ C) _ a (S (S rc))); auto; [lia|rewrite (cnt_cons a (MkN p v (inr a))), ref_self; lia|].
          intros b Nb. rewrite cnt_cons. unfold ref. cbn [n_kids].
          replace (a =? b) with false by (symmetry; apply Nat.eqb_neq; auto). reflexivity. }
        exists h'. split; auto. split; auto. eapply pres_trans; [|exact P2]. apply pres_ext. eapply rc_extends; eauto.
  Qed.
  Lemma drop_all_inv h work C : Inv h (work ++ C) -> exists h', drop_all h work = Some h' /\ Inv h' C /\ pres h h' C.
  Proof. intros I. apply drop_inv; auto. Qed.

  (** ** Materialisation *)
  Lemma shallow_dens h ts : dens h (map shallow ts) ts.
  Proof. induction ts as [|[p v us] ts IH]; simpl; constructor; auto. constructor. Qed.
  Lemma shallow_inv h C ts : Inv h C -> Inv h (map shallow ts ++ C).
  Proof. induction ts as [|[p v us] ts IH]; simpl; auto. intros I. apply inv_inl. auto. Qed.
  Lemma force_inv h C n h' a : Inv h (n :: C) -> force h n = (h', a) ->
    Inv h' (with_arc n a :: C) /\ grows h h' /\ forall t, den h n t -> den h' (with_arc n a) t.
  Proof.
    intros I. unfold force. destruct n as [p v [ts|b]]; cbn [n_kids with_arc n_prefix n_value].
    - intros Q. apply inv_inl in I. apply (shallow_inv h C ts) in I.
      destruct (new_inv h _ C p v h' a I Q) as (I' & G & Hc & _ & _). split; auto. split; auto.
      intros t D. inversion D; subst. econstructor; eauto. apply shallow_dens.
    - intros [= <- <-]. split; auto. split; [apply grows_refl|auto].
  Qed.
  Lemma den_swap h a rc rc' ns ns' : h_cell h a = Some (rc, ns) ->
    (forall ts, dens (h_upd h a (Some (rc', ns'))) ns ts -> dens (h_upd h a (Some (rc', ns'))) ns' ts) ->
    (forall n t, den h n t -> den (h_upd h a (Some (rc', ns'))) n t) /\
    (forall ms ts, dens h ms ts -> dens (h_upd h a (Some (rc', ns'))) ms ts).
  Proof.
    intros Ha X. apply den_dens_ind; intros; try now constructor.
    destruct (Nat.eq_dec a0 a) as [->|N].
    - assert (ns0 = ns) by congruence. subst. econstructor; [apply upd_same|]. auto.
    - econstructor; [rewrite upd_other; eauto|]. auto.
  Qed.
  Lemma upd_nth_dens h i ns ts n n' : nth_error ns i = Some n -> (forall t, den h n t -> den h n' t) ->
    dens h ns ts -> dens h (upd_nth i n' ns) ts.
  Proof.
    intros Hn X D. revert i Hn. induction D; intros [|i] Hn; simpl in Hn; try discriminate.
    - injection Hn as ->. unfold upd_nth. simpl. constructor; auto.
    - unfold upd_nth. simpl. constructor; auto. now apply IHD.
  Qed.
  Lemma nth_split3 {X} (l : list X) i x : nth_error l i = Some x -> l = firstn i l ++ x :: skipn (S i) l.
  Proof. revert i. induction l as [|y l IH]; intros [|i]; simpl; try discriminate; [intros [= ->]; auto|]. intros H. f_equal. now apply IH. Qed.
  Lemma upd_nth_id {X} (l : list X) i x : nth_error l i = Some x -> upd_nth i x l = l.
  Proof. intros H. unfold upd_nth. symmetry. now apply nth_split3. Qed.
  Lemma upd_nth_perm {X} (l : list X) i x y : nth_error l i = Some x -> Permutation (y :: l) (x :: upd_nth i y l).
  Proof.
    intros H. unfold upd_nth. rewrite (nth_split3 l i x H) at 1.
    etransitivity; [apply perm_skip, Permutation_sym, Permutation_middle|]. etransitivity; [apply perm_swap|]. apply perm_skip, Permutation_middle.
  Qed.
  Lemma nth_upd_same {X} (l : list X) i x y : nth_error l i = Some x -> nth_error (upd_nth i y l) i = Some y.
  Proof.
    intros H. unfold upd_nth. assert (i < length l) by (apply nth_error_Some; congruence).
    rewrite nth_error_app2; rewrite firstn_length, Nat.min_l by lia; [|lia]. now rewrite Nat.sub_diag.
  Qed.
  Lemma nth_upd_other {X} (l : list X) i j y : i < length l -> j <> i -> nth_error (upd_nth i y l) j = nth_error l j.
  Proof.
    unfold upd_nth. revert i j. induction l as [|x l IH]; intros i j Hi N; simpl in Hi; [lia|].
    destruct i as [|i], j as [|j]; simpl; auto; try congruence. apply IH; lia.
  Qed.

  Lemma force_at_inv h C a i rc ns c : Inv h C -> h_cell h a = Some (rc, ns) -> nth_error ns i = Some c ->
    exists h' b ns', force_at h a i = Some h' /\ Inv h' C /\ (forall m t, den h m t -> den h' m t) /\
      h_cell h' a = Some (rc, ns') /\ nth_error ns' i = Some (with_arc c b) /\ forall t, den h c t -> den h' (with_arc c b) t.
  Proof.
    intros I Ha Hn. unfold force_at. rewrite Ha, Hn. unfold force. destruct c as [p v [us|b]]; cbn [n_kids].
    - destruct (arc_new h (map shallow us)) as [h1 b] eqn:Q.
      destruct (new_inv h _ C p v h1 b (shallow_inv h C us I) Q) as (I1 & G & Hb & Hf & _).
      assert (Ha1 : h_cell h1 a = Some (rc, ns)).
      { injection Q as <- <-. cbn. replace (a =? h_next h) with false; auto. symmetry. apply Nat.eqb_neq.
        pose proof (inv_lt _ _ _ _ I Ha). lia. }
      assert (N : a <> b) by congruence. set (c := with_arc (MkN p v (inl us)) b). set (ns' := upd_nth i c ns).
      set (h' := h_upd h1 a (Some (rc, ns'))).
      assert (X : forall ts, dens h' ns ts -> dens h' ns' ts).
      { intros ts. apply upd_nth_dens with (n := MkN p v (inl us)); auto. intros t D. inversion D; subst.
        econstructor; [unfold h'; rewrite upd_other by auto; exact Hb|]. apply shallow_dens. }
      assert (P : forall m t, den h m t -> den h' m t).
      { intros m t D. apply (den_swap h1 a rc rc ns ns' Ha1 X). now apply (den_ext h h1 (grows_ext _ _ G)). }
      exists h', b, ns'. split; auto. split; [|split; [auto|split; [apply upd_same|split; [eapply nth_upd_same; eauto|]]]].
      2:{ intros t D. inversion D; subst. econstructor; [unfold h'; rewrite upd_other by auto; exact Hb|]. apply shallow_dens. }
      pose proof (inv_lt _ _ _ _ I1 Ha1) as Hlt.
      pose proof (upd_nth_perm ns i _ c Hn) as Pm. constructor.
      + intros d Hd. cbn [h' h_upd h_next] in Hd. unfold h'. rewrite upd_other by lia. now apply (inv_bound _ _ I1).
      + intros d. pose proof (hrefs_upd h1 a (Some (rc, ns')) d Hlt) as E. unfold ccnt in E at 1. rewrite Ha1 in E. fold h' in E.
        apply (cnt_perm d) in Pm. rewrite !cnt_cons in Pm. unfold ref in Pm at 2. cbn [n_kids] in Pm. fold ns' in Pm.
        pose proof (inv_count _ _ I1 d) as R. rewrite cnt_cons in R. change (MkN p v (inr b)) with c in R.
        destruct (Nat.eq_dec d a) as [->|Nd].
        * unfold h'. rewrite upd_same. rewrite Ha1 in R. fold h'. lia.
        * unfold h' at 1. rewrite upd_other by auto. destruct (h_cell h1 d) as [[r ms]|]; lia.
      + assert (P1 : forall ms ts, dens h1 ms ts -> dens h' ms ts) by (apply (den_swap h1 a rc rc ns ns' Ha1 X)).
        intros d r ms Hd. destruct (Nat.eq_dec d a) as [->|Nd].
        * unfold h' in Hd. rewrite upd_same in Hd. injection Hd as <- <-. destruct (inv_den _ _ I1 _ _ _ Ha1) as (ts & D). eauto.
        * unfold h' in Hd. rewrite upd_other in Hd by auto. destruct (inv_den _ _ I1 _ _ _ Hd) as (ts & D). eauto.
    - change (with_arc (MkN p v (inr b)) b) with (MkN p v (@inr (list tree) nat b)). rewrite (upd_nth_id ns i) by auto.
      exists (h_upd h a (Some (rc, ns))), b, ns. split; auto.
      pose proof (inv_count _ _ I a) as R. rewrite Ha in R.
      split; [eapply rc_inv; eauto; lia|]. split; [apply (den_ext h), (rc_extends _ _ _ _ _ Ha)|]. split; [apply upd_same|]. split; auto.
      apply (den_ext h), (rc_extends _ _ _ _ _ Ha).
  Qed.
  Lemma touch_at_inv path : forall h C a rc ns ts p v u, Inv h C -> h_cell h a = Some (rc, ns) -> dens h ns ts ->
    t_sub path (Node p v ts) = Some u ->
    exists h' b rb nb, touch_at path h a = Some (h', b) /\ Inv h' C /\ (forall m t, den h m t -> den h' m t) /\
      h_cell h' b = Some (rb, nb) /\ dens h' nb (t_children u).
  Proof.
    induction path as [|i path IH]; intros h C a rc ns ts p v u I Ha D Hp; cbn [touch_at].
    - injection Hp as <-. exists h, a, rc, ns. auto.
    - cbn [t_sub t_children] in Hp. pose proof (dens_nth h ns ts i D) as Hi.
      destruct (nth_error ts i) as [tc|] eqn:Ht; [|discriminate]. destruct (nth_error ns i) as [c|] eqn:Hn; [|easy].
      destruct (force_at_inv h C a i rc ns c I Ha Hn) as (h1 & b & ns' & -> & I1 & P & Ha1 & Hn1 & Pc). rewrite Ha1, Hn1. cbn [with_arc n_kids].
      apply Pc in Hi. destruct tc as [cp cv us]. unfold with_arc in Hi. inversion Hi; subst.
      edestruct (IH h1 C b) as (h2 & d & rb & nb & -> & I2 & P2 & Hd & Dd); eauto.
      exists h2, d, rb, nb. split; [reflexivity|]. split; [assumption|]. split; [intros m t Dm; apply P2; now apply P|auto].
  Qed.
  Lemma touch_inv path h C n t u : Inv h (n :: C) -> den h n t -> t_sub path t = Some u ->
    exists h' n' b rb nb, touch path h n = Some (h', n', b) /\ Inv h' (n' :: C) /\ den h' n' t /\ pres h h' C /\
      h_cell h' b = Some (rb, nb) /\ dens h' nb (t_children u).
  Proof.
    intros I D Hp. unfold touch. destruct (force h n) as [h1 a] eqn:Q. destruct (force_inv h C n h1 a I Q) as (I1 & G & Dn).
    apply Dn in D. destruct t as [p v ts]. pose proof D as D0. unfold with_arc in D0. inversion D0; subst.
    edestruct (touch_at_inv path h1 (with_arc n a :: C) a) as (h2 & b & rb & nb & -> & I2 & P2 & Hb & Db); eauto.
    exists h2, (with_arc n a), b, rb, nb. split; auto. split; auto. split; auto. split; auto.
    intros m t _ Dm. apply P2. now apply (den_ext h h1 (grows_ext _ _ G)).
  Qed.

  (** ** Mutation in place *)
  Lemma children_mut_inv h C n p v ts : Inv h (n :: C) -> den h n (Node p v ts) ->
    exists h' a ns, children_mut h n = Some (h', MkN p v (inr a), a) /\ Inv h' (MkN p v (inr a) :: C) /\ extends h h' /\
      h_cell h' a = Some (1, ns) /\ dens h' ns ts.
  Proof.
    intros I D. unfold children_mut. destruct (force h n) as [h1 a] eqn:Q. destruct (force_inv h C n h1 a I Q) as (I1 & G & Dn).
    apply Dn in D. assert (Qn : with_arc n a = MkN p v (inr a)) by (unfold with_arc in D; inversion D; reflexivity).
    rewrite Qn in *. destruct (make_mut_inv h1 C p v a I1) as (h2 & a' & ns & rc & -> & I2 & X & Ha & Ha').
    exists h2, a', ns. split; [unfold with_arc in *; congruence|]. split; auto. split; [eapply extends_trans; [apply grows_ext; eauto|auto]|].
    split; auto. inversion D; subst. replace ns with ns0 by congruence. now apply (den_ext h1 h2 X).
  Qed.

  (** pointwise equal heaps *)
  Definition heq (h h' : heap) : Prop := h_next h = h_next h' /\ forall b, h_cell h b = h_cell h' b.
  Lemma heq_ext h h' : heq h h' -> extends h h'.
  Proof. intros [_ H] b rc ns. rewrite H. eauto. Qed.
  Lemma heq_inv h h' C : heq h h' -> Inv h C -> Inv h' C.
  Proof.
    intros Q I. pose proof (heq_ext _ _ Q) as X. destruct Q as [Qn Qc].
    assert (Hr : forall a, hrefs h' a = hrefs h a).
    { intros a. unfold hrefs. rewrite Qn. apply sum_ext. intros x _. unfold ccnt. now rewrite Qc. }
    constructor.
    - intros b Hb. rewrite <- Qc. apply (inv_bound _ _ I). lia.
    - intros b. rewrite <- Qc, Hr. apply (inv_count _ _ I).
    - intros b rc ns Hb. rewrite <- Qc in Hb. destruct (inv_den _ _ I _ _ _ Hb) as (ts & D). exists ts. now apply (den_ext h h' X).
  Qed.
  Lemma upd_upd h a c d : heq (h_upd (h_upd h a c) a d) (h_upd h a d).
  Proof. split; auto. intros b. cbn. now destruct (b =? a). Qed.

  (** freed addresses are not reused *)
  Definition mono (h h' : heap) : Prop :=
    h_next h <= h_next h' /\ forall b, b < h_next h -> h_cell h b = None -> h_cell h' b = None.
  Lemma mono_refl h : mono h h.
  Proof. split; auto. Qed.
  Lemma mono_trans h1 h2 h3 : mono h1 h2 -> mono h2 h3 -> mono h1 h3.
  Proof. intros [A B] [C D]. split; [lia|]. intros b Hb N. apply D; auto. lia. Qed.
  Lemma mono_upd h a x c : h_cell h a = Some x -> mono h (h_upd h a c).
  Proof. intros H. split; auto. intros b _ N. rewrite upd_other; auto. congruence. Qed.
  Lemma mono_new h ns h' a : arc_new h ns = (h', a) -> mono h h'.
  Proof.
    intros [= <- <-]. split; cbn; [lia|]. intros b Hb N. destruct (Nat.eqb_spec b (h_next h)); [lia|auto].
  Qed.
  Lemma mono_clone ns : forall h h' ms, nodes_clone h ns = Some (h', ms) -> mono h h'.
  Proof.
    induction ns as [|n ns IH]; cbn [nodes_clone]; intros h h' ms H; [injection H as <- <-; apply mono_refl|].
    destruct (node_clone h n) as [[h1 n1]|] eqn:Q; [|discriminate]. destruct (nodes_clone h1 ns) as [[h2 l]|] eqn:Q2; [|discriminate].
    injection H as <- <-. apply mono_trans with h1; [|eauto]. unfold node_clone in Q. destruct (n_kids n) as [?|a]; [injection Q as <- <-; apply mono_refl|].
    unfold arc_clone in Q. destruct (h_cell h a) as [[rc ks]|] eqn:Ha; [|discriminate]. injection Q as <- <-. eapply mono_upd; eauto.
  Qed.
  Lemma mono_force h n h' a : force h n = (h', a) -> mono h h'.
  Proof. unfold force. destruct (n_kids n); [apply mono_new|]. intros [= <- <-]. apply mono_refl. Qed.
  Lemma mono_make_mut h a h' a' : make_mut h a = Some (h', a') -> mono h h'.
  Proof.
    unfold make_mut. destruct (h_cell h a) as [[[|[|rc]] ns]|]; try discriminate; [intros [= <- <-]; apply mono_refl|].
    destruct (nodes_clone h ns) as [[h1 ms]|] eqn:Q; [|discriminate]. destruct (arc_new h1 ms) as [h2 b] eqn:Q2.
    destruct (h_cell h2 a) as [[[|[|r]] ks]|] eqn:Q3; try discriminate. intros [= <- <-].
    eapply mono_trans; [eapply mono_clone; eauto|]. eapply mono_trans; [eapply mono_new; eauto|]. eapply mono_upd; eauto.
  Qed.
  Lemma mono_children_mut h n h' n' a : children_mut h n = Some (h', n', a) -> mono h h'.
  Proof.
    unfold children_mut. destruct (force h n) as [h1 b] eqn:Q. destruct (make_mut h1 b) as [[h2 b']|] eqn:Q2; [|discriminate].
    intros [= <- <- <-]. eapply mono_trans; [eapply mono_force; eauto|eapply mono_make_mut; eauto].
  Qed.

  Definition olist {X} (o : option X) : list X := match o with Some x => [x] | None => [] end.
  Definition act_ok (inp : list node) (tin : list tree) (act : action) (pact : tree -> option (tree * option tree)) : Prop :=
    forall C h n t t' out, Inv h (n :: inp ++ C) -> den h n t -> dens h inp tin -> pact t = Some (t', out) ->
      exists h' n' nout, act h n = Some (h', n', nout) /\ Inv h' (n' :: olist nout ++ C) /\ den h' n' t' /\
        dens h' (olist nout) (olist out) /\ pres h h' C /\ mono h h'.

  Lemma dens_firstn h i ns ts : dens h ns ts -> dens h (firstn i ns) (firstn i ts).
  Proof. intros D. revert i. induction D; intros [|i]; simpl; constructor; auto. Qed.
  Lemma dens_skipn h i ns ts : dens h ns ts -> dens h (skipn i ns) (skipn i ts).
  Proof. intros D. revert i. induction D; intros [|i]; simpl; auto; constructor; auto. Qed.
  Lemma dens_join h l m t1 t2 : dens h l t1 -> dens h m t2 -> dens h (l ++ m) (t1 ++ t2).
  Proof. intros A B. apply dens_app. eauto. Qed.

  Lemma mut_at_ok inp tin act pact path : act_ok inp tin act pact -> act_ok inp tin (mut_at path act) (tmut path pact).
  Proof.
    intros A. induction path as [|i path IH]; [exact A|]. intros C h n t t' out I D Di Q.
    cbn [tmut] in Q. destruct t as [p v ts]. destruct (nth_error ts i) as [tc|] eqn:Ht; [|discriminate].
    destruct (tmut path pact tc) as [[tc' x]|] eqn:Qc; [|discriminate]. injection Q as <- <-. cbn [mut_at].
    destruct (children_mut_inv h (inp ++ C) n p v ts I D) as (h1 & a & ns & Qm & I1 & X1 & Ha & Dn). rewrite Qm, Ha.
    pose proof (dens_nth h1 ns ts i Dn) as Hc. rewrite Ht in Hc. destruct (nth_error ns i) as [c|] eqn:Hn; [|easy].
    destruct (borrow_inv _ _ _ _ _ _ I1 Ha) as (I2 & P2 & Hlt). set (h2 := h_upd h1 a None) in *.
    pose proof (nth_split3 ns i c Hn) as Sp. set (l := firstn i ns) in *. set (r := skipn (S i) ns) in *.
    assert (Inl : incl (l ++ r) ns) by (rewrite Sp; intros y; rewrite !in_app_iff; simpl; tauto).
    assert (I2' : Inv h2 (c :: inp ++ ((l ++ r) ++ C))).
    { eapply inv_perm; [|exact I2]. rewrite Sp at 1. rewrite <- !app_assoc. simpl.
      etransitivity; [apply Permutation_sym, Permutation_middle|]. apply perm_skip.
      rewrite !app_assoc. apply Permutation_app_tail. rewrite <- (app_assoc inp). apply Permutation_app_comm. }
    assert (Dc : den h2 c tc) by (apply P2; auto; apply in_or_app; left; eapply nth_error_In; eauto).
    assert (Di2 : dens h2 inp tin).
    { eapply pres_dens; [|exact P2|now apply (den_ext h h1 X1)]. intros y Hy. apply in_or_app. right. apply in_or_app. now left. }
    destruct (IH _ h2 c tc tc' x I2' Dc Di2 Qc) as (h3 & c' & nout & -> & I3 & Dc' & Do & P3 & M3).
    assert (Ha3 : h_cell h3 a = None) by (apply M3; [exact Hlt|apply upd_same]).
    assert (Hlt3 : a < h_next h3) by (destruct M3 as [M3 _]; cbn in M3; lia).
    fold l r. change (upd_nth i c' ns) with (l ++ c' :: r).
    assert (I3' : Inv h3 ((l ++ c' :: r) ++ olist nout ++ C)).
    { eapply inv_perm; [|exact I3]. rewrite <- (app_assoc l (c' :: r)). simpl. etransitivity; [|apply Permutation_middle]. apply perm_skip.
      rewrite !app_assoc. apply Permutation_app_tail. rewrite <- (app_assoc (olist nout)). apply Permutation_app_comm. }
    destruct (giveback_inv h3 (olist nout ++ C) p v a _ I3' Ha3 Hlt3) as (I4 & X4).
    exists (h_upd h3 a (Some (1, l ++ c' :: r))), (MkN p v (inr a)), nout. split; auto. split; auto.
    assert (Pl : pres h2 h3 (l ++ r)) by (eapply pres_incl; [|exact P3]; intros y Hy; apply in_or_app; now left).
    assert (D3 : dens h3 l (firstn i ts) /\ dens h3 r (skipn (S i) ts)).
    { assert (D2 : dens h2 ns ts) by (eapply pres_dens; [|exact P2|exact Dn]; intros y Hy; apply in_or_app; now left).
      split; (eapply pres_dens; [|exact Pl|]); [|now apply dens_firstn| |now apply dens_skipn]; intros y Hy; apply in_or_app; auto. }
    destruct D3 as [D3 D3']. split; [|split; [|split]].
    - econstructor; [apply upd_same|]. apply (den_ext h3 _ X4). apply dens_join; auto. constructor; auto.
    - now apply (den_ext h3 _ X4).
    - intros m t Hm Dm. apply (den_ext h3 _ X4). apply P3; [apply in_or_app; now right|]. apply P2; [apply in_or_app; right; apply in_or_app; now right|].
      now apply (den_ext h h1 X1).
    - apply mono_children_mut in Qm. destruct Qm as [M1 M1']. destruct M3 as [M3 M3']. split; [cbn in *; lia|].
      intros b Hb N. specialize (M1' b Hb N). assert (b <> a) by congruence. rewrite upd_other by auto. apply M3'; [cbn; lia|].
      unfold h2. now rewrite upd_other.
  Qed.

  Lemma act_prefix_ok p : act_ok [] [] (act_prefix p) (t_set_prefix p).
  Proof.
    intros C h n t t' out I D _ Q. destruct t as [q v ts]. injection Q as <- <-. exists h, (MkN p (n_value n) (n_kids n)), None.
    split; [reflexivity|]. split; [eapply inv_kids; [|exact I]; reflexivity|]. split; [inversion D; subst; econstructor; eauto|].
    split; [constructor|]. split; [now intros m t|apply mono_refl].
  Qed.
  Lemma act_value_ok v : act_ok [] [] (act_value v) (t_set_value v).
  Proof.
    intros C h n t t' out I D _ Q. destruct t as [q w ts]. injection Q as <- <-. exists h, (MkN (n_prefix n) v (n_kids n)), None.
    split; [reflexivity|]. split; [eapply inv_kids; [|exact I]; reflexivity|]. split; [inversion D; subst; econstructor; eauto|].
    split; [constructor|]. split; [now intros m t|apply mono_refl].
  Qed.
  (** replacing the contents of a vector one owns, by nodes one owns *)
  Lemma write_own h p v a ns C ns' D : Inv h (MkN p v (inr a) :: C) -> h_cell h a = Some (1, ns) ->
    Permutation (ns ++ C) (ns' ++ D) ->
    Inv (h_upd h a (Some (1, ns'))) (MkN p v (inr a) :: D) /\ pres h (h_upd h a (Some (1, ns'))) (ns ++ C).
  Proof.
    intros I Ha P. destruct (borrow_inv _ _ _ _ _ _ I Ha) as (I2 & P2 & Hlt).
    apply (inv_perm _ _ _ P) in I2. destruct (giveback_inv _ D p v a ns' I2 (upd_same _ _ _) Hlt) as (I3 & X3).
    split; [eapply heq_inv; [apply upd_upd|exact I3]|].
    eapply pres_trans; [exact P2|]. apply pres_ext. eapply extends_trans; [exact X3|]. apply heq_ext, upd_upd.
  Qed.
  Lemma act_insert_ok j m tm : act_ok [m] [tm] (act_insert j m) (t_insert j tm).
  Proof.
    intros C h n t t' out I D Di Q. destruct t as [p v ts]. cbn [t_insert] in Q. destruct (Nat.leb_spec j (length ts)) as [Hj|]; [|discriminate].
    injection Q as <- <-. unfold act_insert.
    destruct (children_mut_inv h ([m] ++ C) n p v ts I D) as (h1 & a & ns & Qm & I1 & X1 & Ha & Dn). rewrite Qm, Ha.
    rewrite (dens_length _ _ _ Dn). replace (j <=? length ts) with true by (symmetry; apply Nat.leb_le; auto).
    set (ns' := firstn j ns ++ m :: skipn j ns).
    assert (P : Permutation (ns ++ [m] ++ C) (ns' ++ C)).
    { unfold ns'. rewrite <- (firstn_skipn j ns) at 1. rewrite <- !app_assoc. apply Permutation_app_head. simpl. apply Permutation_sym, Permutation_middle. }
    destruct (write_own h1 p v a ns _ ns' C I1 Ha P) as (I2 & P2).
    exists (h_upd h1 a (Some (1, ns'))), (MkN p v (inr a)), None. split; auto. split; auto.
    assert (Dn2 : dens (h_upd h1 a (Some (1, ns'))) ns ts) by (eapply pres_dens; [|exact P2|exact Dn]; intros y Hy; apply in_or_app; now left).
    split; [|split; [constructor|split]].
    - econstructor; [apply upd_same|]. apply dens_join; [now apply dens_firstn|]. constructor; [|now apply dens_skipn].
      inversion Di; subst. apply P2; [apply in_or_app; right; now left|]. now apply (den_ext h h1 X1).
    - intros y t Hy Dy. apply P2; [apply in_or_app; right; now right|]. now apply (den_ext h h1 X1).
    - eapply mono_trans; [eapply mono_children_mut; eauto|]. eapply mono_upd; eauto.
  Qed.
  Lemma act_remove_ok j : act_ok [] [] (act_remove j) (t_remove j).
  Proof.
    intros C h n t t' out I D _ Q. destruct t as [p v ts]. cbn [t_remove] in Q. destruct (nth_error ts j) as [tm|] eqn:Ht; [|discriminate].
    injection Q as <- <-. unfold act_remove.
    destruct (children_mut_inv h C n p v ts I D) as (h1 & a & ns & Qm & I1 & X1 & Ha & Dn). rewrite Qm, Ha.
    pose proof (dens_nth h1 ns ts j Dn) as Hc. rewrite Ht in Hc. destruct (nth_error ns j) as [m|] eqn:Hn; [|easy].
    set (ns' := firstn j ns ++ skipn (S j) ns).
    assert (P : Permutation (ns ++ C) (ns' ++ m :: C)).
    { unfold ns'. rewrite (nth_split3 ns j m Hn) at 1. rewrite <- !app_assoc. apply Permutation_app_head. simpl. apply Permutation_middle. }
    destruct (write_own h1 p v a ns _ ns' (m :: C) I1 Ha P) as (I2 & P2).
    exists (h_upd h1 a (Some (1, ns'))), (MkN p v (inr a)), (Some m). split; auto. split; auto.
    assert (Dn2 : dens (h_upd h1 a (Some (1, ns'))) ns ts) by (eapply pres_dens; [|exact P2|exact Dn]; intros y Hy; apply in_or_app; now left).
    split; [|split; [|split]].
    - econstructor; [apply upd_same|]. apply dens_join; [now apply dens_firstn|exact (dens_skipn _ (S j) _ _ Dn2)].
    - constructor; [|constructor]. apply P2; auto. apply in_or_app. left. eapply nth_error_In; eauto.
    - intros y t Hy Dy. apply P2; [apply in_or_app; now right|]. now apply (den_ext h h1 X1).
    - eapply mono_trans; [eapply mono_children_mut; eauto|]. eapply mono_upd; eauto.
  Qed.
End Facts.

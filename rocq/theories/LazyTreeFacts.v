(** Facts about LazyTreeModel.v: what the steps of the threads keep. *)
From Verif Require Import RadixFacts.
From Verif Require Export LazyTreeSpec.

Lemma nth_set {Y} i (y : Y) l j : i < length l -> nth_error (set_nth i y l) j = if j =? i then Some y else nth_error l j.
Proof.
  unfold set_nth. revert i j. induction l as [|z l IH]; intros i j H; cbn [length] in H; [lia|].
  destruct i as [|i]; destruct j as [|j]; cbn [firstn skipn app nth_error Nat.eqb]; auto. apply IH. lia.
Qed.
Lemma set_len {Y} i (y : Y) l : i < length l -> length (set_nth i y l) = length l.
Proof.
  intros H. unfold set_nth. rewrite app_length, firstn_length. cbn [length]. rewrite skipn_length. lia.
Qed.
Lemma nth_lt {Y} (l : list Y) i y : nth_error l i = Some y -> i < length l.
Proof. intros H. apply nth_error_Some. congruence. Qed.
Lemma nth_snoc {Y} (l k : list Y) i y : nth_error l i = Some y -> nth_error (l ++ k) i = Some y.
Proof. intros H. rewrite nth_error_app1; [auto|]. eapply nth_lt; eauto. Qed.
Lemma nth_last {Y} (l : list Y) y : nth_error (l ++ [y]) (length l) = Some y.
Proof. rewrite nth_error_app2, Nat.sub_diag by lia. reflexivity. Qed.
Lemma F2_nth_l {A B} (R : A -> B -> Prop) l1 l2 i x : Forall2 R l1 l2 -> nth_error l1 i = Some x -> exists y, nth_error l2 i = Some y /\ R x y.
Proof.
  intros H. revert i. induction H as [|a b l1 l2 H0 H IH]; intros [|i]; cbn; try discriminate.
  - intros [= <-]. eauto.
  - apply IH.
Qed.
Lemma F2_none {A B} (R : A -> B -> Prop) l1 l2 i : Forall2 R l1 l2 -> nth_error l1 i = None -> nth_error l2 i = None.
Proof. intros H. revert i. induction H; intros [|i]; cbn; auto; discriminate. Qed.
Lemma F2_mono {A B} (R S : A -> B -> Prop) l1 l2 : Forall2 R l1 l2 -> (forall x y, R x y -> S x y) -> Forall2 S l1 l2.
Proof. induction 1; constructor; auto. Qed.

Section Facts.
  Context {K V : Type}.
  Notation tree := (rtree K V).
  Notation lmem := (lmem K V).
  Notation lnode := (lnode K V).
  Notation content := (list tree + nat)%type.

  (** what the data of a Lazy says about the children *)
  Definition says (m : lmem) (d : content) (ts : list tree) : Prop :=
    match d with
    | inl us => us = ts
    | inr a => exists ns, nth_error (m_vecs m) a = Some ns /\ Forall2 (shows m) ns ts
    end.
  Lemma shows_eq m n p v ts : shows m n (Node p v ts) <->
    fst n = (p, v) /\ exists l d, nth_error (m_cells m) (snd n) = Some (MkL l d) /\ says m d ts.
  Proof.
    cbn [shows]. split; intros (E & H); (split; [exact E|]).
    - destruct (nth_error (m_cells m) (snd n)) as [[l [us|a]]|]; [| |easy].
      + exists l, (inl us). auto.
      + exists l, (inr a). split; [auto|]. cbn [says]. destruct (nth_error (m_vecs m) a) as [ns|]; [|easy]. exists ns. split; [auto|].
        clear E. revert ts H. induction ns as [|x ns IH]; intros [|t ts]; try easy. intros (H1 & H2). constructor; auto.
    - destruct H as (l & d & -> & H). destruct d as [us|a]; [exact H|]. destruct H as (ns & -> & H).
      induction H; auto.
  Qed.
  Lemma shows_cell m n t : shows m n t -> fst n = (t_prefix t, t_value t) /\
    exists l d, nth_error (m_cells m) (snd n) = Some (MkL l d) /\ says m d (t_children t).
  Proof. destruct t as [p v ts]. apply shows_eq. Qed.

  Definition refines (m m' : lmem) : Prop :=
    (forall c l d, nth_error (m_cells m) c = Some (MkL l d) ->
       exists l' d', nth_error (m_cells m') c = Some (MkL l' d') /\
         (d' = d \/ exists us a ns, d = inl us /\ d' = inr a /\ nth_error (m_vecs m) a = Some ns /\ Forall2 (shows m) ns us)) /\
    (forall a ns, nth_error (m_vecs m) a = Some ns -> nth_error (m_vecs m') a = Some ns).
  Lemma F2_shows m m' (ts : list tree) : Forall (fun t => forall n, shows m n t -> shows m' n t) ts ->
    forall ns, Forall2 (shows m) ns ts -> Forall2 (shows m') ns ts.
  Proof. induction 1 as [|t ts H _ IH]; intros ns F; inversion F; subst; constructor; auto. Qed.
  Lemma shows_refines m m' : refines m m' -> forall t n, shows m n t -> shows m' n t.
  Proof.
    intros (R1 & R2) t. induction t as [p v ts IH] using rtree_ind'. intros n. rewrite !shows_eq. intros (E & l & d & Hc & H). split; [exact E|].
    destruct (R1 _ _ _ Hc) as (l' & d' & Hc' & [->|(us & a & ns & -> & -> & Hv & F)]); exists l'.
    - exists d. split; [auto|]. destruct d as [us|a]; [exact H|]. destruct H as (ns & Hv & F). exists ns. split; [auto|]. eapply F2_shows; eauto.
    - exists (inr a). split; [auto|]. cbn [says] in *. subst us. exists ns. split; [auto|]. eapply F2_shows; eauto.
  Qed.
  Lemma refines_refl (m : lmem) : refines m m.
  Proof. split; [intros c l d H; exists l, d; auto|auto]. Qed.

  (** changing the lock of a Lazy *)
  Lemma lock_nth (m : lmem) c o d l0 d0 c' : nth_error (m_cells m) c = Some (MkL l0 d0) ->
    nth_error (m_cells (lock_cell m c o d)) c' = if c' =? c then Some (MkL o d) else nth_error (m_cells m) c'.
  Proof. intros H. cbn [lock_cell m_cells]. apply nth_set. eapply nth_lt; eauto. Qed.
  Lemma lock_refines (m : lmem) c o d l0 : nth_error (m_cells m) c = Some (MkL l0 d) -> refines m (lock_cell m c o d).
  Proof.
    intros H. split; [|auto]. intros c' l d' H'. rewrite (lock_nth _ _ _ _ _ _ _ H). destruct (Nat.eqb_spec c' c) as [->|N].
    - rewrite H in H'. injection H' as <- <-. exists o, d. auto.
    - exists l, d'. auto.
  Qed.
  Lemma write_refines (m : lmem) c o l0 us a ns : nth_error (m_cells m) c = Some (MkL l0 (inl us)) -> nth_error (m_vecs m) a = Some ns ->
    Forall2 (shows m) ns us -> refines m (lock_cell m c o (inr a)).
  Proof.
    intros H Hv F. split; [|auto]. intros c' l d' H'. rewrite (lock_nth _ _ _ _ _ _ _ H). destruct (Nat.eqb_spec c' c) as [->|N].
    - rewrite H in H'. injection H' as <- <-. exists o, (inr a). split; [auto|]. right. eauto 8.
    - exists l, d'. auto.
  Qed.
  Lemma more_refines (m : lmem) cs vs : refines m (MkMem (m_cells m ++ cs) (m_vecs m ++ vs)).
  Proof. split; cbn [m_cells m_vecs]; [intros c l d H; exists l, d; split; [now apply nth_snoc|auto]|intros; now apply nth_snoc]. Qed.
  Lemma refines_trans (m1 m2 m3 : lmem) : refines m1 m2 -> refines m2 m3 ->
    (forall c l d, nth_error (m_cells m2) c = Some (MkL l d) -> nth_error (m_cells m1) c <> None -> exists l' , nth_error (m_cells m3) c = Some (MkL l' d)) -> refines m1 m3.
  Proof.
    intros (A1 & A2) (B1 & B2) Q. split; [|auto]. intros c l d H. destruct (A1 _ _ _ H) as (l' & d' & H' & D).
    destruct (Q _ _ _ H' ltac:(congruence)) as (l3 & H3). exists l3, d'. auto.
  Qed.

  (** materialize_shallow *)
  Lemma shallow_nodes (ts : list tree) (m : lmem) b : forall k,
    (forall j t, nth_error ts j = Some t -> exists l, nth_error (m_cells m) (b + (k + j)) = Some (MkL l (inl (t_children t)))) ->
    Forall2 (shows m) (map (fun '(t, j) => (t_prefix t, t_value t, b + j)) (combine ts (seq k (length ts)))) ts.
  Proof.
    induction ts as [|t ts IH]; intros k H; cbn [length seq combine map]; [constructor|]. constructor.
    - destruct t as [p v us]. apply shows_eq. split; [reflexivity|]. destruct (H 0 (Node p v us) eq_refl) as (l & Q). cbn [t_children] in Q.
      exists l, (inl us). cbn [snd]. replace (k + 0) with k in Q by lia. split; [exact Q|reflexivity].
    - apply IH. intros j u Hj. destruct (H (S j) u Hj) as (l & Q). exists l. replace (S k + j) with (k + S j) by lia. exact Q.
  Qed.
  Lemma shallow_spec (m : lmem) ts m' a : m_shallow m ts = (m', a) ->
    (exists cs vs, m' = MkMem (m_cells m ++ cs) (m_vecs m ++ vs) /\ Forall (fun x => l_lock x = None) cs) /\
    exists ns, nth_error (m_vecs m') a = Some ns /\ Forall2 (shows m') ns ts.
  Proof.
    unfold m_shallow. intros [= <- <-]. split.
    - eexists _, _. split; [reflexivity|]. rewrite Forall_forall. intros x H. apply in_map_iff in H as (t & <- & _). reflexivity.
    - eexists. split; [cbn [m_vecs]; apply nth_last|]. apply (shallow_nodes ts _ _ 0). intros j t H. exists None. cbn [m_cells].
      rewrite nth_error_app2 by lia. replace (length (m_cells m) + (0 + j) - length (m_cells m)) with j by lia. now rewrite nth_error_map, H.
  Qed.
  Lemma heads_of m ns ts : Forall2 (shows m) ns ts -> map (@summary K V) ns = heads ts.
  Proof. induction 1 as [|n t ns ts H _ IH]; [reflexivity|]. cbn [map heads]. unfold heads in IH. rewrite IH. f_equal. apply (shows_cell _ _ _ H). Qed.
End Facts.

Section Inv.
  Context {K V X : Type} (bad : list (rtree K V) -> Prop).
  Notation tree := (rtree K V).
  Notation lmem := (lmem K V).
  Notation lnode := (lnode K V).
  Notation thread := (lthread K V X).

  (** the mutex a thread holds *)
  Definition locks (p : at_ K V) : option nat :=
    match p with
    | Crit c | Run c _ | Wr c _ | Unwind c | Rel c => Some c
    | CCrit n | CRel n _ => Some (snd n)
    | Between | Want _ | Rd _ | CWant _ => None
    end.
  Section Env.
    Context (T0 : list tree).
  Definition in_kids (t : thread) (c : nat) : Prop := exists r k n, t_walk t = Kids r k /\ nth_error (t_seen t) r = Some n /\ snd n = c.
  Definition in_copy (t : thread) (n : lnode) : Prop := exists r k, t_walk t = Copy r k /\ nth_error (t_seen t) r = Some n.
  Definition cell_is (m : lmem) c l d : Prop := nth_error (m_cells m) c = Some (MkL l d).
  Definition at_ok (i : nat) (m : lmem) (t : thread) : Prop :=
    match t_at t with
    | Between => True
    | Want c => in_kids t c
    | Crit c => in_kids t c /\ exists d, cell_is m c (Some i) d
    | Run c us => in_kids t c /\ cell_is m c (Some i) (inl us)
    | Wr c a => in_kids t c /\ exists us ns, cell_is m c (Some i) (inl us) /\ nth_error (m_vecs m) a = Some ns /\ Forall2 (shows m) ns us
    | Unwind c => in_kids t c /\ exists us, cell_is m c (Some i) (inl us) /\ bad us
    | Rel c => in_kids t c /\ exists a, cell_is m c (Some i) (inr a)
    | Rd c => in_kids t c /\ exists l a, cell_is m c l (inr a)
    | CWant n => in_copy t n
    | CCrit n => in_copy t n /\ exists d, cell_is m (snd n) (Some i) d
    | CRel n d => in_copy t n /\ cell_is m (snd n) (Some i) d
    end.
  Definition thr_ok (w0 : walk K V X) (i : nat) (m : lmem) (t : thread) : Prop :=
    (exists env, Forall2 (shows m) (t_seen t) env /\ forall x, yields bad (t_walk t) env x -> yields bad w0 T0 x) /\ at_ok i m t.

  (** a step of another thread [i] keeps what [j] relies on *)
  Lemma other_ok w0 j m m' t : refines m m' ->
    (forall c d, cell_is m c (Some j) d -> cell_is m' c (Some j) d) -> thr_ok w0 j m t -> thr_ok w0 j m' t.
  Proof.
    intros R Lk ((env & F & Y) & A). split; [exists env; split; [eapply F2_mono; [exact F|]; intros; eapply shows_refines; eauto|exact Y]|].
    unfold at_ok in *. destruct (t_at t) as [|c|c|c us|c a|c|c|c|n|n|n d].
    - exact I.
    - exact A.
    - destruct A as (A & d & H). split; [auto|eauto].
    - destruct A as (A & H). split; auto.
    - destruct A as (A & us & ns & H & Hv & F2). split; [auto|]. exists us, ns. split; [auto|]. split; [now apply R|].
      eapply F2_mono; [exact F2|]. intros; eapply shows_refines; eauto.
    - destruct A as (A & us & H & B). split; [auto|eauto].
    - destruct A as (A & a & H). split; [auto|eauto].
    - destruct A as (A & l & a & H). split; [auto|]. destruct R as (R & _). destruct (R _ _ _ H) as (l' & d' & H' & [->|(us & a' & ns & [=] & _)]). unfold cell_is. eauto.
    - exact A.
    - destruct A as (A & d & H). split; [auto|eauto].
    - destruct A as (A & H). split; auto.
  Qed.

  Definition effect (w0 : walk K V X) (i : nat) (m : lmem) (t : thread) (m' : lmem) (t' : thread) : Prop :=
    refines m m' /\ (forall c j d, j <> i -> cell_is m c (Some j) d -> cell_is m' c (Some j) d) /\ thr_ok w0 i m' t' /\
    (forall c x j, nth_error (m_cells m') c = Some x -> l_lock x = Some j ->
       (j = i /\ locks (t_at t') = Some c) \/ (j <> i /\ exists x0, nth_error (m_cells m) c = Some x0 /\ l_lock x0 = Some j)).

  Lemma seen_kids (t : thread) m env r n c : Forall2 (shows m) (t_seen t) env -> nth_error (t_seen t) r = Some n -> snd n = c ->
    exists u, nth_error env r = Some u /\ exists l d, cell_is m c l d /\ says m d (t_children u).
  Proof.
    intros F H <-. destruct (F2_nth_l _ _ _ _ _ F H) as (u & Hu & S). exists u. split; [auto|]. apply shows_cell in S as (_ & S). exact S.
  Qed.
  (** the locks after one Lazy was changed by its holder, or taken *)
  Lemma lock_locks i (m : lmem) c o d l0 d0 p : nth_error (m_cells m) c = Some (MkL l0 d0) ->
    (forall c' x, nth_error (m_cells m) c' = Some x -> l_lock x = Some i -> c' = c) -> (o = None \/ o = Some i /\ locks p = Some c) ->
    forall c' x j, nth_error (m_cells (lock_cell m c o d)) c' = Some x -> l_lock x = Some j ->
      (j = i /\ locks p = Some c') \/ (j <> i /\ exists x0, nth_error (m_cells m) c' = Some x0 /\ l_lock x0 = Some j).
  Proof.
    intros H Own Ho c' x j. rewrite (lock_nth _ _ _ _ _ _ _ H). destruct (Nat.eqb_spec c' c) as [->|N].
    - intros [= <-]. cbn [l_lock]. intros ->. destruct Ho as [|([= ->] & Ho)]; [discriminate|]. left. auto.
    - intros Hx Hl. right. split; [|eauto]. intros ->. apply N. eauto.
  Qed.
  Lemma lock_others i (m : lmem) c o d l0 d0 : nth_error (m_cells m) c = Some (MkL l0 d0) -> (l0 = None \/ l0 = Some i) ->
    forall c' j d', j <> i -> cell_is m c' (Some j) d' -> cell_is (lock_cell m c o d) c' (Some j) d'.
  Proof.
    intros H Hl c' j d' N H'. unfold cell_is in *. rewrite (lock_nth _ _ _ _ _ _ _ H). destruct (Nat.eqb_spec c' c) as [->|]; [|auto].
    rewrite H in H'. injection H' as -> _. destruct Hl as [|[= ->]]; [discriminate|congruence].
  Qed.
  Lemma same_locks i (m : lmem) (p q : at_ K V) : (forall c x, nth_error (m_cells m) c = Some x -> l_lock x = Some i -> locks p = Some c) -> locks q = locks p ->
    forall c x j, nth_error (m_cells m) c = Some x -> l_lock x = Some j ->
       (j = i /\ locks q = Some c) \/ (j <> i /\ exists x0, nth_error (m_cells m) c = Some x0 /\ l_lock x0 = Some j).
  Proof. intros O -> c x j H Hl. destruct (Nat.eq_dec j i) as [->|N]; [left|right]; eauto. Qed.

  Lemma step_effect w0 i crash (m : lmem) (t : thread) m' t' l : lstep i crash m t = Some (m', t', l) ->
    (crash = true -> forall c cs, t_at t = Run c cs -> bad cs) ->
    (forall c x, nth_error (m_cells m) c = Some x -> l_lock x = Some i -> locks (t_at t) = Some c) ->
    thr_ok w0 i m t -> effect w0 i m t m' t'.
  Proof.
    intros St Bad Own ((env & F & Y) & A). unfold lstep in St. unfold at_ok in A.
    assert (STAY : forall w s p, (exists env', Forall2 (shows m) s env' /\ forall x, yields bad w env' x -> yields bad w0 T0 x) ->
              at_ok i m (MkT w s p) -> locks p = locks (t_at t) -> effect w0 i m t m (MkT w s p)).
    { intros w s p H1 H2 H3. split; [apply refines_refl|]. split; [auto|]. split; [split; auto|]. apply (same_locks i m (t_at t)); auto. }
    destruct (t_at t) as [|c|c|c us|c a|c|c|c|n|n|n d] eqn:Pc.
    - destruct (t_walk t) as [x|r k|r k] eqn:W; [discriminate| |].
      + destruct (nth_error (t_seen t) r) as [n|] eqn:Hr; injection St as <- <- <-.
        * apply STAY; [rewrite <- W in *; eauto| |reflexivity]. unfold at_ok. cbn [t_at]. exists r, k, n. cbn [t_walk t_seen]. auto.
        * apply STAY; [|exact I|reflexivity]. exists env. split; [auto|]. intros x Hx. apply Y. apply y_none; [|auto]. eapply F2_none; eauto.
      + destruct (nth_error (t_seen t) r) as [n|] eqn:Hr; injection St as <- <- <-.
        * apply STAY; [rewrite <- W in *; eauto| |reflexivity]. unfold at_ok. cbn [t_at]. exists r, k. cbn [t_walk t_seen]. auto.
        * apply STAY; [|exact I|reflexivity]. exists env. split; [auto|]. intros x Hx. apply Y. apply y_copy_none; [|auto]. eapply F2_none; eauto.
    - (* Want *)
      destruct (nth_error (m_cells m) c) as [[[j|] d]|] eqn:Hc; try discriminate. injection St as <- <- <-.
      pose proof (lock_refines m c (Some i) d None Hc) as R. split; [exact R|]. split; [eapply lock_others; eauto|]. split.
      + split; [exists env; split; [eapply F2_mono; [exact F|]; intros; eapply shows_refines; eauto|exact Y]|].
        unfold at_ok. cbn [t_at]. split; [exact A|]. exists d. unfold cell_is. rewrite (lock_nth _ _ _ _ _ _ _ Hc), Nat.eqb_refl. reflexivity.
      + eapply lock_locks; [exact Hc| |right; split; reflexivity]. intros c' x Hx Hl. discriminate (Own c' x Hx Hl).
    - (* Crit *)
      destruct A as (A & d & Hd). unfold cell_is in Hd. rewrite Hd in St. destruct d as [us|a]; injection St as <- <- <-; apply STAY; eauto; unfold at_ok; cbn [t_at].
      + split; [exact A|exact Hd].
      + split; [exact A|eauto].
    - (* Run *)
      destruct A as (A & Hd). destruct crash.
      + injection St as <- <- <-. apply STAY; [eauto| |reflexivity]. unfold at_ok. cbn [t_at]. split; [exact A|]. exists us. split; [exact Hd|]. eapply Bad; eauto.
      + destruct (m_shallow m us) as [m1 a] eqn:Q. injection St as <- <- <-. destruct (shallow_spec _ _ _ _ Q) as ((cs & vs & -> & Un) & ns & Hv & Hs).
        pose proof (more_refines m cs vs) as R. split; [exact R|]. split; [|split].
        * intros c' j d' _ H'. unfold cell_is in *. cbn [m_cells]. now apply nth_snoc.
        * split; [exists env; split; [eapply F2_mono; [exact F|]; intros; eapply shows_refines; eauto|exact Y]|].
          unfold at_ok. cbn [t_at]. split; [exact A|]. exists us, ns. split; [|auto]. unfold cell_is in *. cbn [m_cells]. now apply nth_snoc.
        * intros c' x j Hx Hl. cbn [m_cells t_at locks] in *. destruct (lt_dec c' (length (m_cells m))) as [Lt'|Ge].
          -- rewrite nth_error_app1 in Hx by auto. destruct (Nat.eq_dec j i) as [->|N]; [left; split; [auto|]; eapply Own; eauto|right; eauto].
          -- rewrite nth_error_app2 in Hx by lia. apply nth_error_In in Hx. rewrite Forall_forall in Un. apply Un in Hx. congruence.
    - (* Wr *)
      destruct A as (A & us & ns & Hd & Hv & Hs). unfold cell_is in Hd. rewrite Hd in St. injection St as <- <- <-.
      pose proof (write_refines m c (Some i) _ us a ns Hd Hv Hs) as R. split; [exact R|]. split; [eapply lock_others; eauto|]. split.
      + split; [exists env; split; [eapply F2_mono; [exact F|]; intros; eapply shows_refines; eauto|exact Y]|].
        unfold at_ok. cbn [t_at]. split; [exact A|]. exists a. unfold cell_is. rewrite (lock_nth _ _ _ _ _ _ _ Hd), Nat.eqb_refl. reflexivity.
      + eapply lock_locks; [exact Hd| |right; split; reflexivity]. intros c' x Hx Hl. specialize (Own c' x Hx Hl). cbn [locks] in Own. congruence.
    - (* Unwind *)
      destruct A as ((r & k & n & W & Hr & Hn) & us & Hd & B). unfold cell_is in Hd. rewrite Hd, W in St. injection St as <- <- <-.
      pose proof (lock_refines m c None (inl us) _ Hd) as R. split; [exact R|]. split; [eapply lock_others; eauto|]. split.
      + split; [|exact I]. exists env. split; [eapply F2_mono; [exact F|]; intros; eapply shows_refines; eauto|].
        intros x Hx. apply Y. rewrite W. destruct (seen_kids t m env r n c F Hr Hn) as (u & Hu & l1 & d1 & Hc1 & S1). unfold cell_is in Hc1. rewrite Hd in Hc1. injection Hc1 as _ <-.
        cbn [says] in S1. subst us. eapply y_panic; eauto.
      + eapply lock_locks; [exact Hd| |left; reflexivity]. intros c' x Hx Hl. specialize (Own c' x Hx Hl). cbn [locks] in Own. congruence.
    - (* Rel *)
      destruct A as (A & a & Hd). unfold cell_is in Hd. rewrite Hd in St. injection St as <- <- <-.
      pose proof (lock_refines m c None (inr a) _ Hd) as R. split; [exact R|]. split; [eapply lock_others; eauto|]. split.
      + split; [exists env; split; [eapply F2_mono; [exact F|]; intros; eapply shows_refines; eauto|exact Y]|].
        unfold at_ok. cbn [t_at]. split; [exact A|]. exists None, a. unfold cell_is. rewrite (lock_nth _ _ _ _ _ _ _ Hd), Nat.eqb_refl. reflexivity.
      + eapply lock_locks; [exact Hd| |left; reflexivity]. intros c' x Hx Hl. specialize (Own c' x Hx Hl). cbn [locks] in Own. congruence.
    - (* Rd *)
      destruct A as ((r & k & n & W & Hr & Hn) & l0 & a & Hd). unfold cell_is in Hd. rewrite Hd, W in St.
      destruct (seen_kids t m env r n c F Hr Hn) as (u & Hu & l1 & d1 & Hc1 & S1). unfold cell_is in Hc1. rewrite Hd in Hc1. injection Hc1 as _ <-.
      destruct S1 as (ns & Hv & Hs). rewrite Hv in St. injection St as <- <- <-. apply STAY; [|exact I|reflexivity].
      exists (env ++ t_children u). split; [now apply Forall2_app|]. intros x Hx. apply Y. rewrite W. eapply y_kids; [exact Hu|]. rewrite <- (heads_of _ _ _ Hs). exact Hx.
    - (* CWant *)
      destruct (nth_error (m_cells m) (snd n)) as [[[j|] d]|] eqn:Hc; try discriminate. injection St as <- <- <-.
      pose proof (lock_refines m (snd n) (Some i) d None Hc) as R. split; [exact R|]. split; [eapply lock_others; eauto|]. split.
      + split; [exists env; split; [eapply F2_mono; [exact F|]; intros; eapply shows_refines; eauto|exact Y]|].
        unfold at_ok. cbn [t_at]. split; [exact A|]. exists d. unfold cell_is. rewrite (lock_nth _ _ _ _ _ _ _ Hc), Nat.eqb_refl. reflexivity.
      + eapply lock_locks; [exact Hc| |right; split; reflexivity]. intros c' x Hx Hl. discriminate (Own c' x Hx Hl).
    - (* CCrit *)
      destruct A as (A & d & Hd). unfold cell_is in Hd. rewrite Hd in St. injection St as <- <- <-. apply STAY; eauto. unfold at_ok. cbn [t_at]. split; [exact A|exact Hd].
    - (* CRel *)
      destruct A as ((r & k & W & Hr) & Hd). unfold cell_is in Hd. rewrite Hd, W in St. injection St as <- <- <-.
      pose proof (lock_refines m (snd n) None d _ Hd) as R1. set (m1 := lock_cell m (snd n) None d) in *.
      assert (Em : MkMem (m_cells m1 ++ [MkL None d]) (m_vecs m1) = MkMem (m_cells m1 ++ [MkL None d]) (m_vecs m1 ++ [])) by now rewrite app_nil_r.
      match goal with |- effect _ _ _ _ ?x (MkT _ (_ ++ [(_, ?q)]) _) => change x with (MkMem (m_cells m1 ++ [MkL None d]) (m_vecs m1)); change q with (length (m_cells m1)) end.
      rewrite Em. pose proof (more_refines m1 [MkL None d] []) as R2. set (m2 := MkMem (m_cells m1 ++ [MkL None d]) (m_vecs m1 ++ [])) in *.
      assert (R : refines m m2).
      { eapply refines_trans; eauto. intros c' l' d' H' _. exists l'. cbn [m2 m_cells]. now apply nth_snoc. }
      assert (F' : Forall2 (shows m2) (t_seen t) env) by (eapply F2_mono; [exact F|]; intros; eapply shows_refines; eauto).
      split; [exact R|]. split; [|split].
      + intros c' j d' N H'. unfold cell_is. cbn [m2 m_cells]. apply nth_snoc. eapply lock_others; eauto.
      + split; [|exact I]. destruct (F2_nth_l _ _ _ _ _ F' Hr) as (u & Hu & Su). exists (env ++ [u]). cbn [t_seen t_walk]. split.
        * apply Forall2_app; [exact F'|]. constructor; [|constructor]. destruct u as [p v us]. apply shows_eq in Su as (E1 & l1 & d1 & Hc1 & S1). apply shows_eq.
          split; [exact E1|]. exists None, d. cbn [snd]. split; [cbn [m2 m_cells]; apply nth_last|].
          cbn [m2 m_cells] in Hc1. apply nth_lt in Hd as Hlt. rewrite nth_error_app1 in Hc1 by (unfold m1; cbn [lock_cell m_cells]; rewrite set_len by exact Hlt; exact Hlt).
          unfold m1 in Hc1. rewrite (lock_nth _ _ _ _ _ _ _ Hd), Nat.eqb_refl in Hc1. injection Hc1 as _ <-. exact S1.
        * intros x Hx. apply Y. rewrite W. eapply y_copy; eauto.
      + intros c' x j Hx Hl. cbn [t_at locks]. cbn [m2 m_cells] in Hx. destruct (lt_dec c' (length (m_cells m1))) as [Lt'|Ge].
        * rewrite nth_error_app1 in Hx by auto. eapply (lock_locks i m (snd n) None d _ _ Between); [exact Hd| |left; reflexivity|exact Hx|exact Hl].
          intros c2 x2 Hx2 Hl2. specialize (Own c2 x2 Hx2 Hl2). cbn [locks] in Own. congruence.
        * rewrite nth_error_app2 in Hx by lia. destruct (c' - length (m_cells m1)) as [|q]; [|destruct q; discriminate]. injection Hx as <-. discriminate Hl.
  Qed.
  End Env.

  (** ** All threads *)
  Section All.
    Context (ws : list (walk K V X)) (T0 : list tree).
    Record linv (s : lst K V X) (ld : list nat) : Prop := {
      li_len : length (s_thr s) = length ws;
      li_thr : forall i t w0, nth_error (s_thr s) i = Some t -> nth_error ws i = Some w0 -> thr_ok T0 w0 i (s_mem s) t;
      li_lock : forall c x j, nth_error (m_cells (s_mem s)) c = Some x -> l_lock x = Some j ->
        exists t, nth_error (s_thr s) j = Some t /\ locks (t_at t) = Some c;
      li_load : forall c, count_occ Nat.eq_dec ld c <= 1 /\
        (In c ld -> (exists l a, cell_is (s_mem s) c l (inr a)) \/ exists j t a, nth_error (s_thr s) j = Some t /\ t_at t = Wr c a) }.

    Lemma load_effect i crash m (t : thread) m' t' l : lstep i crash m t = Some (m', t', l) ->
      (l = [] /\ ((forall c a, t_at t' <> Wr c a))) \/ (exists c us a, l = [c] /\ t_at t = Run c us /\ t_at t' = Wr c a).
    Proof.
      unfold lstep. intros H.
      destruct (t_at t) as [|c|c|c us|c a|c|c|c|n|n|n d] eqn:Pc;
        repeat match type of H with
               | context [match ?x with _ => _ end] => first [destruct x eqn:? | discriminate H]
               | Some _ = Some _ => injection H as <- <- <-
               end; try discriminate; try (left; split; [reflexivity|cbn [t_at]; discriminate]).
      right. cbn [t_at]. eauto 7.
    Qed.
    Lemma linv_step s ld l s' : linv s ld -> lsteps bad s l s' -> linv s' (ld ++ l).
    Proof.
      intros [I1 I2 I3 I4] St. inversion St as [i crash m ts t m' t' l' Ht Hs Hb]; subst. cbn [s_mem s_thr] in *.
      assert (Hi : i < length ts) by (eapply nth_lt; eauto).
      destruct (nth_error ws i) as [w0|] eqn:Hw; [|apply nth_error_None in Hw; lia].
      assert (Own : forall c x, nth_error (m_cells m) c = Some x -> l_lock x = Some i -> locks (t_at t) = Some c).
      { intros c x Hx Hl. destruct (I3 c x i Hx Hl) as (t1 & H1 & H2). congruence. }
      destruct (step_effect T0 w0 i crash m t m' t' l Hs Hb Own (I2 _ _ _ Ht Hw)) as (R & Ot & Ok & Lk).
      constructor; cbn [s_mem s_thr].
      - now rewrite set_len.
      - intros j u w1 Hu Hw1. rewrite nth_set in Hu by auto. destruct (Nat.eqb_spec j i) as [->|N].
        + injection Hu as <-. rewrite Hw in Hw1. injection Hw1 as <-. exact Ok.
        + eapply other_ok; [exact R| |eapply I2; eauto]. intros c d. apply Ot. exact N.
      - intros c x j Hx Hl. destruct (Lk c x j Hx Hl) as [(-> & H)|(N & x0 & H1 & H2)].
        + exists t'. rewrite nth_set, Nat.eqb_refl by auto. auto.
        + destruct (I3 c x0 j H1 H2) as (u & Hu & Hlu). exists u. rewrite nth_set by auto. replace (j =? i) with false by (symmetry; now apply Nat.eqb_neq). auto.
      - intros c. rewrite count_occ_app. destruct (I4 c) as (C1 & C2).
        assert (KEEP : In c ld -> (exists l a, cell_is m' c l (inr a)) \/ exists j u a, nth_error (set_nth i t' ts) j = Some u /\ t_at u = Wr c a).
        { intros Hin. destruct (C2 Hin) as [(l0 & a & Hc)|(j & u & a & Hu & Hw1)].
          - left. destruct R as (R & _). destruct (R _ _ _ Hc) as (l1 & d1 & Hc1 & [->|(us & a1 & ns & [=] & _)]). unfold cell_is. eauto.
          - destruct (Nat.eq_dec j i) as [->|N].
            + left. rewrite Ht in Hu. injection Hu as <-. unfold lstep in Hs. rewrite Hw1 in Hs.
              destruct (nth_error (m_cells m) c) as [[l0 d0]|] eqn:Hc; [|discriminate]. injection Hs as <- <- <-. exists l0, a. unfold cell_is.
              rewrite (lock_nth _ _ _ _ _ _ _ Hc), Nat.eqb_refl. reflexivity.
            + right. exists j, u, a. rewrite nth_set by auto. replace (j =? i) with false by (symmetry; now apply Nat.eqb_neq). auto. }
        destruct (load_effect i crash m t m' t' l Hs) as [(-> & _)|(c' & us & a & -> & Hr & Hw')].
        + cbn [count_occ]. rewrite app_nil_r. split; [lia|exact KEEP].
        + cbn [count_occ]. split.
          * destruct (Nat.eq_dec c' c) as [->|N]; [|lia]. enough (~ In c ld) by (rewrite (proj1 (count_occ_not_In Nat.eq_dec ld c)); auto).
            intros Hin. destruct (I2 _ _ _ Ht Hw) as (_ & A). unfold at_ok in A. rewrite Hr in A. destruct A as (_ & A). unfold cell_is in A.
            destruct (C2 Hin) as [(l0 & a0 & Hc)|(j & u & a0 & Hu & Hw1)]; [unfold cell_is in Hc; congruence|].
            destruct (Nat.eq_dec j i) as [->|N]; [congruence|].
            destruct (nth_error ws j) as [w1|] eqn:Hwj; [|apply nth_error_None in Hwj; apply nth_lt in Hu; lia].
            destruct (I2 _ _ _ Hu Hwj) as (_ & B). unfold at_ok in B. rewrite Hw1 in B. destruct B as (_ & us1 & ns & B & _). unfold cell_is in B. congruence.
          * intros Hin. apply in_app_or in Hin as [Hin|[<-|[]]]; [auto|]. right. exists i, t', a. rewrite nth_set, Nat.eqb_refl by auto. auto.
    Qed.
    Lemma linv_start m roots : unlocked m -> Forall2 (shows m) roots T0 -> linv (lstart m roots ws) [].
    Proof.
      intros U F. constructor; cbn [lstart s_mem s_thr].
      - apply map_length.
      - intros i t w0 Ht Hw. rewrite nth_error_map, Hw in Ht. injection Ht as <-. split; [|exact I]. exists T0. auto.
      - intros c x j Hx Hl. rewrite (U c x Hx) in Hl. discriminate.
      - intros c. split; [cbn; lia|intros []].
    Qed.
    Lemma linv_exec s ld s' : lexec bad s ld s' -> linv s [] -> linv s' ld.
    Proof. induction 1 as [s|s l s1 l1 s2 E IH St]; [auto|]. intros H. eapply linv_step; eauto. Qed.
  End All.
End Inv.

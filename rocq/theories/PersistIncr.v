(** How much a flush appends after the tree has been changed in place. *)
From Coq Require Import Permutation.
From Verif Require Export PersistShare HeapClosed.

Section PersistIncr.
  Context {K V : Type} (kcmp : K -> K -> comparison) (strat : nat -> nat -> bool).
  Notation tree := (rtree K V).
  Notation node := (node K V).
  Notation heap := (heap K V).
  Implicit Types (h : heap) (b : db K V).

  (** the calls that change register 0 in place, take a snapshot of it, drop another register, or only read *)
  Definition updates (o : api K V) : bool :=
    match o with
    | AInsert i _ _ | APrepend i _ | AOuterWith _ i _ | AInnerWith _ i _ | ALeftWith _ i _ | ARemoveWith _ i _ | ARetainWith _ i _ => i =? 0
    | ABase (OClone _ _) | AGet _ _ | AIter _ | AIntersects _ _ | AIsSubset _ _ => true
    | ABase (ODrop i) => negb (i =? 0)
    | _ => false
    end.
  Notation arcs := False.
  Definition keeps0 (S : nat -> Prop) (st : state K V) : Prop := exists r, rget 0 (snd st) = Some r /\ nin S arcs r /\ closed S arcs (fst st).
  Lemma take_put0 {X} (s s1 s2 : regs X) x y : rtake 0 s = Some (x, s1) -> rput 0 y s1 = Some s2 -> rget 0 s = Some x /\ rget 0 s2 = Some y.
  Proof. intros A B. split; [unfold rtake in A; destruct (rget 0 s); [now injection A as ->|discriminate]|]. eapply rput_get; eauto. Qed.
  Lemma put_other {X} (s s' : regs X) i j x y : rput j y s = Some s' -> rget i s = Some x -> rget i s' = Some x.
  Proof.
    unfold rput, rget. destruct (nth_error s j) as [[?|]|] eqn:Q; try discriminate. intros [= <-] H.
    destruct (Nat.eq_dec i j) as [->|N]; [rewrite Q in H; discriminate|]. rewrite nth_upd_other; auto. apply nth_error_Some. congruence.
  Qed.
  Lemma take_other {X} (s s' : regs X) i j x y : rtake j s = Some (y, s') -> i <> j -> rget i s = Some x -> rget i s' = Some x.
  Proof.
    unfold rtake, rget. destruct (nth_error s j) as [[z|]|] eqn:Q; try discriminate. intros [= _ <-] N. rewrite nth_upd_other; auto. apply nth_error_Some. congruence.
  Qed.
  Lemma update_step (S : nat -> Prop) F o st st' l : S 0 -> updates o = true -> keeps0 S st -> astep kcmp strat true F o st = Some (st', l) -> keeps0 S st'.
  Proof.
    intros S0 U (r & Hr & N & C) H. destruct st as [h s]. cbn [fst snd] in *.
    assert (W : forall act i (b : nat), i = 0 -> safe_rec S arcs (act : heap -> node -> node -> option (heap * node)) -> in_place act i b (h, s) = Some (st', l) -> keeps0 S st').
    { intros act i b -> Sa Hp. unfold in_place in Hp. destruct (rtake 0 s) as [[x s1]|] eqn:Qt; [|discriminate]. destruct (rget b s1) as [m|]; [|discriminate].
      destruct (act h x m) as [[h1 n1]|] eqn:Qa; [|discriminate]. destruct (rput 0 n1 s1) as [s2|] eqn:Qp; [|discriminate]. injection Hp as <- <-.
      destruct (take_put0 _ _ _ _ _ Qt Qp) as [E1 E2]. rewrite Hr in E1. injection E1 as <-. destruct (Sa _ _ _ N C _ _ Qa). exists n1. auto. }
    assert (Ans : forall X (mk : X -> obs K V) q, answer mk (h, s) q = Some (st', l) -> keeps0 S st').
    { intros X mk q. unfold answer. destruct q; try discriminate. intros [= <- <-]. exists r. auto. }
    destruct o as [o|k v j|i k v|i p|i p j|f i b|f i b|f i b|f i b|f i b|f a b j|f a b j|f a b j|i k|i|a b|a b]; try discriminate; cbn [astep updates] in *;
      try (apply Nat.eqb_eq in U).
    - destruct o; try discriminate; cbn [hstep updates] in *.
      + destruct (rget i s) as [x|]; [|discriminate]. destruct (node_clone h x) as [[h1 x']|] eqn:Q; [|discriminate]. destruct (rput j x' s) as [s1|] eqn:Qp; [|discriminate].
        injection H as <- <-. destruct (closed_nclone _ _ _ _ _ _ C Q) as [C1 _]. exists r. cbn [fst snd]. split; [eapply put_other; eauto|auto].
      + apply negb_true_iff, Nat.eqb_neq in U. destruct (rtake i s) as [[x s1]|] eqn:Q; [|discriminate]. destruct (drop_all h [x]) as [h1|] eqn:Qd; [|discriminate].
        injection H as <- <-. exists r. cbn [fst snd]. split; [eapply take_other; eauto|]. split; auto. eapply closed_drop; eauto.
    - subst i. destruct (rtake 0 s) as [[x s1]|] eqn:Qt; [|discriminate]. unfold into_reg in H. destruct (h_insert kcmp strat true F k v h x) as [[h1 n1]|] eqn:Qa; [|discriminate].
      destruct (rput 0 n1 s1) as [s2|] eqn:Qp; [|discriminate]. injection H as <- <-. destruct (take_put0 _ _ _ _ _ Qt Qp) as [E1 E2]. rewrite Hr in E1. injection E1 as <-.
      destruct (safe_insert kcmp strat true S S0 arcs F k v h r N C _ _ Qa). exists n1. auto.
    - subst i. destruct (rtake 0 s) as [[x s1]|] eqn:Qt; [|discriminate]. unfold into_reg in H. destruct (h_prepend h x p) as [n1|] eqn:Qa; [|discriminate].
      destruct (rput 0 n1 s1) as [s2|] eqn:Qp; [|discriminate]. injection H as <- <-. destruct (take_put0 _ _ _ _ _ Qt Qp) as [E1 E2]. rewrite Hr in E1. injection E1 as <-.
      exists n1. cbn [fst snd]. split; auto. split; auto. eapply nin_prepend; eauto.
    - eapply W; eauto. now apply safe_outer.
    - eapply W; eauto. now apply safe_inner.
    - eapply W; eauto. now apply safe_left.
    - eapply W; eauto. now apply safe_remove.
    - eapply W; eauto. now apply safe_retain_with.
    - destruct (rget i s) as [x|]; [|discriminate]. destruct (h_get kcmp F h x k); [|discriminate]. injection H as <- <-. exists r. auto.
    - destruct (rget i s) as [x|]; [|discriminate]. eapply Ans; eauto.
    - destruct (rget a s) as [x|]; [|discriminate]. destruct (rget b s) as [y|]; [|discriminate]. eapply Ans; eauto.
    - destruct (rget a s) as [x|]; [|discriminate]. destruct (rget b s) as [y|]; [|discriminate]. eapply Ans; eauto.
  Qed.
  Lemma update_run (S : nat -> Prop) F (us : list (api K V)) : S 0 -> forallb updates us = true -> forall b b' l, keeps0 S (b_mem b) -> db_run kcmp strat F (map DUser us) b = Some (b', l) ->
    keeps0 S (b_mem b') /\ b_map b' = b_map b /\ b_disk b' = b_disk b.
  Proof.
    intros S0. induction us as [|o us IH]; intros U b b' l N H; cbn [map db_run forallb] in *; [injection H as <- <-; auto|]. apply andb_true_iff in U as [Uo U].
    cbn [db_step] in H. destruct (astep kcmp strat true F o (b_mem b)) as [[st l1]|] eqn:Q; [|discriminate].
    destruct (db_run kcmp strat F (map DUser us) _) as [[b2 l2]|] eqn:Q2; [|discriminate]. injection H as <- <-.
    pose proof (update_step S F o _ _ _ S0 Uo N Q) as N1. destruct (IH U (MkDb st (b_disk b) (b_map b) (b_arcs b) (b_pos b)) _ _ N1 Q2) as (A & B & D). cbn [b_map b_disk] in *. auto.
  Qed.

  (** what a process that has just saved its tree may use *)
  Definition known b (a : nat) : Prop := look (b_map b) a <> None \/ h_next (fst (b_mem b)) <= a \/ a = 0.
  Lemma static_empty h rc ns : den h static (Node [] None []) -> h_cell h 0 = Some (rc, ns) -> ns = [].
  Proof. intros D H. inversion D as [|? ? ? rc' ns' ts Ha Ds]; subst. rewrite H in Ha. injection Ha as <- <-. now inversion Ds. Qed.
  Lemma known_keeps b vs od : bgood b vs od -> (rooted b \/ exists r, rget 0 (snd (b_mem b)) = Some r /\ n_kids r = inr 0) -> keeps0 (known b) (b_mem b).
  Proof.
    intros G R. assert (C : closed (known b) arcs (fst (b_mem b))).
    { constructor; [|intros a Ha; right; now left]. intros a rc ns [Ha|[Ha|Ha]] Hc.
      - destruct (look (b_map b) a) as [p|] eqn:Q; [|easy]. destruct (bg_file _ _ _ G) as (X & L & _ & _ & _ & [M _]).
        apply Forall_forall. intros c Hin. destruct (mirror_kids _ _ _ _ _ _ _ (M _ _ Q) Hc c Hin) as (y & Ky & Ly). unfold nin. rewrite Ky. now left.
      - pose proof (inv_lt _ _ _ _ (bg_inv _ _ _ G) Hc). lia.
      - subst a. rewrite (static_empty _ _ _ (bg_static _ _ _ G) Hc). constructor. }
    destruct R as [(X & L & r & a & p & q & v & E & _ & Hr & Ka & La & _)|(r & Hr & Kr)].
    - exists r. split; auto. split; auto. unfold nin. rewrite Ka. left. congruence.
    - exists r. split; auto. split; auto. unfold nin. rewrite Kr. right. now right.
  Qed.
  (** what the flush reaches had been reached before it *)
  Lemma dens_member h ns ts c : dens h ns ts -> In c ns -> exists u, den h c u.
  Proof. intros D Hc. destruct (dens_in h ns ts c D Hc) as (u & Du & _). eauto. Qed.
  Lemma reach_back (S : nat -> Prop) h h' : closed S arcs h -> (forall x rc ns, h_cell h x = Some (rc, ns) -> exists rc' ns', h_cell h' x = Some (rc', ns') /\ Forall2 fslot ns ns') ->
    forall n a, reach h' n a -> nin S arcs n -> (exists t, den h n t) -> S a /\ h_cell h a <> None.
  Proof.
    intros Cl St n a R. induction R as [n a Q|n a rc ns c b Q Ha Hc R IH]; intros N (t & D);
      destruct n as [p v k]; cbn in Q; subst k; inversion D as [|? ? ? rc0 ns0 ts Q0 Ds]; subst; cbn [nin n_kids] in N.
    - split; [exact N|congruence].
    - destruct (St _ _ _ Q0) as (rc' & ns' & Ha' & Fs). rewrite Ha in Ha'. injection Ha' as <- <-.
      pose proof (cl_in S arcs h Cl a _ _ N Q0) as F.
      assert (ns = ns0).
      { eapply fslots_arcs; [|exact Fs]. intros d Hd. rewrite Forall_forall in F. specialize (F d Hd). unfold nin in F. destruct (n_kids d) as [?|y]; [easy|eauto]. }
      subst ns0. apply IH; [rewrite Forall_forall in F; auto|]. eapply dens_member; eauto.
  Qed.
  (** a flush after changes in place: at most the new vectors, the shared empty one and the root *)
  Lemma flush_known F b b1 vs od t : bgood b vs od -> rget 0 vs = Some t -> tsize t <= F -> keeps0 (known b1) (b_mem b) -> b_map b = b_map b1 ->
    exists b' e, db_flush F Written b = Some b' /\ contents (d_main (b_disk b')) = contents (d_main (b_disk b)) ++ e /\
      length e <= 2 + (h_next (fst (b_mem b)) - h_next (fst (b_mem b1))).
  Proof.
    intros G Ht HF (r0 & Hr0 & N & C) Em.
    destruct (flush_one F b vs od t G Ht HF) as (b' & e & R & r & a & Q & G' & E & Le & Nd & Hr & HR & _ & Ka & _ & _ & _ & _ & Same & St).
    exists b', e. split; auto. split; auto. rewrite Le.
    assert (X : forall x, In x R -> In x (0 :: seq (h_next (fst (b_mem b1))) (h_next (fst (b_mem b)) - h_next (fst (b_mem b1))))).
    { intros x Hx. destruct (HR _ Hx) as [Rx Nx]. destruct (rget_rel _ _ _ 0 t (bg_rel _ _ _ G) Ht) as (r0' & E0 & D0 & _). rewrite Hr0 in E0. injection E0 as <-.
      assert (K0 : exists a0, n_kids r0 = inr a0) by (unfold nin in N; destruct (n_kids r0); [easy|eauto]). destruct K0 as (a0 & K0).
      pose proof (Same _ _ Hr0 K0) as ->. assert (Rx0 : reach (fst (b_mem b')) r0 x).
      { clear - Rx Ka K0. inversion Rx as [? ? Q|? ? ? ? ? ? Q]; subst; [constructor; congruence|]. eapply reach_below; [|eassumption|eassumption|assumption]. congruence. }
      destruct (reach_back _ _ _ C St r0 x Rx0 N (ex_intro _ t D0)) as [[A|[A|A]] Lv].
      - rewrite <- Em in A. easy.
      - right. apply in_seq. destruct (h_cell (fst (b_mem b)) x) eqn:Qx; [|easy]. pose proof (inv_lt _ _ _ _ (bg_inv _ _ _ G) Qx). lia.
      - left. auto. }
    pose proof (NoDup_incl_length Nd X) as Hl. cbn [length] in Hl. rewrite seq_length in Hl. lia.
  Qed.
End PersistIncr.

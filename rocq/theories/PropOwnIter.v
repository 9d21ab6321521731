(** Property C113: iterating a radix tree by value. *)
From Verif Require Import OwnIterModel RadixSpec RadixFacts RadixFind PropRadix.

(** ** Specification: iterators are lists of what is still to come, and every value that was yielded remembers which
    iterator it came from *)
Section Reference.
  Context {K V : Type}.
  Record istates := MkI { i_made : nat; i_vars : list (option (nat * list (list K * V))); i_refs : list (nat * V) }.
  Definition in_use (id : nat) (vars : list (option (nat * list (list K * V)))) : bool :=
    existsb (fun x => match x with Some (id', _) => id' =? id | None => false end) vars.
  Definition i_step (op : oop K V) (s : istates) : oobs K V * istates :=
    match op with
    | OInto t =>
        match rt_iter t with
        | Ok l => (Quiet, MkI (S (i_made s)) (i_vars s ++ [Some (i_made s, l)]) (i_refs s))
        | _ => (Ub, s)
        end
    | ONext i =>
        match nth_error (i_vars s) i with
        | Some (Some (id, (k, v) :: l)) => (Item k, MkI (i_made s) (set_var i (Some (id, l)) (i_vars s)) (i_refs s ++ [(id, v)]))
        | Some (Some (id, [])) => (NoMore, s)
        | _ => (NotRust, s)
        end
    | OMove i =>
        match nth_error (i_vars s) i with
        | Some (Some o) => (Quiet, MkI (i_made s) (set_var i None (i_vars s) ++ [Some o]) (i_refs s))
        | _ => (NotRust, s)
        end
    | ODrop i =>
        match nth_error (i_vars s) i with
        | Some (Some o) => (Quiet, MkI (i_made s) (set_var i None (i_vars s)) (i_refs s))
        | _ => (NotRust, s)
        end
    | ORead j =>
        match nth_error (i_refs s) j with
        | Some (id, v) => (if in_use id (i_vars s) then Value v else Ub, s)
        | None => (NotRust, s)
        end
    end.
  Fixpoint i_run (ops : list (oop K V)) (s : istates) : list (oobs K V) :=
    match ops with
    | [] => []
    | op :: ops' => let (b, s') := i_step op s in b :: i_run ops' s'
    end.
  Definition i_init : istates := MkI 0 [] [].
End Reference.
Arguments istates : clear implicits.

(** ** Proofs *)
Section Proof.
  Context {K V : Type}.
  Notation tree := (rtree K V).
  Notation entries := (list (list K * V)).

  Lemma node_at_app (t : tree) p i n c : node_at t p = Some n -> nth_error (t_children n) i = Some c ->
    node_at t (p ++ [i]) = Some c.
  Proof.
    revert t. induction p as [|j p IH]; intros t H N; cbn [node_at app] in *.
    - injection H as ->. now rewrite N.
    - destruct (nth_error (t_children t) j) as [c'|]; [auto|discriminate].
  Qed.
  Definition srel (m : boxes K V) (id : nat) (x : nref * nat) (y : tree * nat) : Prop :=
    fst (fst x) = id /\ deref m (fst x) = Some (fst y) /\ snd x = snd y.
  Definition vrel (m : boxes K V) (x : option (obj_iter K)) (y : option (nat * entries)) : Prop :=
    match x, y with
    | None, None => True
    | Some o, Some (id, l) =>
        oi_box o = id /\ exists t st n p, nth_error m id = Some (Some t) /\ Forall2 (srel m id) (oi_stack o) st /\
          iruns (oi_path o, st) n l (p, []) /\ n <= 3 * t_size t
    | _, _ => False
    end.
  Lemma oi_next_ok (m : boxes K V) id : forall fuel path sr st n l p, Forall2 (srel m id) sr st ->
    iruns (path, st) n l (p, []) -> n < fuel ->
    match l with
    | [] => exists o, oi_next m fuel (MkOI id path sr) = ONNone o /\ oi_box o = id /\ oi_stack o = []
    | (k, v) :: l' => exists r o st' n' nd, oi_next m fuel (MkOI id path sr) = ONSome k r o /\ oi_box o = id /\
        fst r = id /\ deref m r = Some nd /\ t_value nd = Some v /\
        Forall2 (srel m id) (oi_stack o) st' /\ iruns (oi_path o, st') n' l' (p, []) /\ n' <= n
    end.
  Proof.
    induction fuel as [|fuel IH]; intros path sr st n l p R I Hf; [lia|].
    cbn [oi_next]. unfold oi_step. cbn [oi_stack oi_path oi_box].
    inversion R as [|[r pos] [t pos'] sr' st' [R1 [R2 R3]] R']; subst.
    - inversion I as [s|s k v s' n' l' s'' Hs|s s' n' l' s'' Hs]; subst; cbn [iter_step] in *; try discriminate.
      eexists. split; [reflexivity|]. auto.
    - cbn [fst snd] in *. subst. rewrite R2.
      inversion I as [s|s k v s' n' l' s'' Hs I'|s s' n' l' s'' Hs I']; subst; cbn [iter_step] in Hs.
      + destruct pos' as [|i].
        * destruct (t_value t) as [v0|] eqn:Tv; [|discriminate]. injection Hs as <- <- <-.
          do 5 eexists. split; [reflexivity|]. cbn [oi_box oi_path oi_stack]. split; [reflexivity|]. split; [reflexivity|].
          split; [exact R2|]. split; [exact Tv|]. split; [|split; [exact I'|lia]].
          constructor; [|exact R']. unfold srel. auto.
        * destruct (nth_error (t_children t) i); discriminate.
      + assert (G : exists o2 st2 sr2, match pos' with
            | 0 => match t_value t with
                   | Some _ => OIYield path r (MkOI (fst r) path ((r, 1) :: sr'))
                   | None => OITau (MkOI (fst r) path ((r, 1) :: sr')) end
            | S i => match nth_error (t_children t) i with
                     | Some c => OITau (MkOI (fst r) (key_append path (t_prefix c)) (((fst r, snd r ++ [i]), 0) :: (r, S pos') :: sr'))
                     | None => OITau (MkOI (fst r) (key_pop path (length (t_prefix t))) sr') end end = OITau o2 /\
            o2 = MkOI (fst r) (fst s') sr2 /\ s' = (fst s', st2) /\ Forall2 (srel m (fst r)) sr2 st2).
        { destruct pos' as [|i].
          - destruct (t_value t) as [v0|]; [discriminate|]. injection Hs as <-. cbn [fst].
            do 3 eexists. split; [reflexivity|]. split; [reflexivity|]. split; [reflexivity|]. constructor; [|exact R'].
            unfold srel. auto.
          - destruct (nth_error (t_children t) i) as [c|] eqn:N; injection Hs as <-; cbn [fst].
            + do 3 eexists. split; [reflexivity|]. split; [reflexivity|]. split; [reflexivity|].
              constructor; [|constructor; [|exact R']]; unfold srel; cbn [fst snd]; auto.
              split; [reflexivity|]. split; [|reflexivity]. unfold deref in *. cbn [fst snd].
              destruct (nth_error m (fst r)) as [[tr|]|]; try discriminate. eapply node_at_app; eauto.
            + do 3 eexists. split; [reflexivity|]. split; [reflexivity|]. split; [reflexivity|]. exact R'. }
        destruct G as (o2 & st2 & sr2 & -> & -> & Es & R2'). rewrite Es in I'.
        specialize (IH (fst s') sr2 st2 n' l p R2' I' ltac:(lia)).
        destruct l as [|[k v] l]; [exact IH|].
        destruct IH as (r2 & o & st3 & n3 & nd & Q1 & Q2 & Q3 & Q4 & Q5 & Q6 & Q7 & Q8).
        exists r2, o, st3, n3, nd. repeat (split; [assumption|]). lia.
  Qed.

  Fixpoint ids (vars : list (option (nat * entries))) : list nat :=
    match vars with [] => [] | Some (id, _) :: l => id :: ids l | None :: l => ids l end.
  Lemma ids_app a b : ids (a ++ b) = ids a ++ ids b.
  Proof. induction a as [|[[i e]|] a IH]; cbn [ids app]; [reflexivity| |]; now rewrite IH. Qed.
  Lemma in_use_ids id vars : in_use id vars = true <-> In id (ids vars).
  Proof.
    induction vars as [|[[i e]|] l IH]; cbn [in_use existsb ids In]; [easy| |exact IH].
    rewrite orb_true_iff, Nat.eqb_eq. fold (in_use id l). now rewrite IH.
  Qed.
  Lemma set_var_mid {X} (l1 l2 : list X) x y : set_var (length l1) y (l1 ++ x :: l2) = l1 ++ y :: l2.
  Proof.
    unfold set_var. rewrite firstn_app, firstn_all, Nat.sub_diag. cbn [firstn]. rewrite app_nil_r.
    f_equal. f_equal. replace (S (length l1)) with (length (l1 ++ [x])) by (rewrite app_length; cbn; lia).
    replace (l1 ++ x :: l2) with ((l1 ++ [x]) ++ l2) by (now rewrite <- app_assoc). now rewrite skipn_app, skipn_all, Nat.sub_diag.
  Qed.

  Definition rrel (m : boxes K V) (r : nref) (x : nat * V) : Prop :=
    fst r = fst x /\ fst r < length m /\
    forall t, nth_error m (fst r) = Some (Some t) -> exists n, node_at t (snd r) = Some n /\ t_value n = Some (snd x).
  Record inv (o : ostate K V) (s : istates K V) : Prop := {
    inv_made : length (o_mem o) = i_made s;
    inv_vars : Forall2 (vrel (o_mem o)) (o_vars o) (i_vars s);
    inv_nodup : NoDup (ids (i_vars s));
    inv_live : forall id t, nth_error (o_mem o) id = Some (Some t) -> In id (ids (i_vars s));
    inv_refs : Forall2 (rrel (o_mem o)) (o_refs o) (i_refs s) }.

  Lemma F2_imp {A B} (P Q : A -> B -> Prop) l l' : (forall x y, In y l' -> P x y -> Q x y) -> Forall2 P l l' -> Forall2 Q l l'.
  Proof. intros H F. induction F; constructor; [apply H; [now left|assumption]|]. apply IHF. intros; apply H; [now right|assumption]. Qed.
  Lemma F2_nth {A B} (P : A -> B -> Prop) l l' : Forall2 P l l' -> forall i,
    match nth_error l i, nth_error l' i with Some x, Some y => P x y | None, None => True | _, _ => False end.
  Proof. induction 1; intros [|i]; cbn [nth_error]; auto. apply IHForall2. Qed.
  Lemma F2_split {A B} (P : A -> B -> Prop) l1 x l2 k1 y k2 : length l1 = length k1 ->
    Forall2 P (l1 ++ x :: l2) (k1 ++ y :: k2) -> Forall2 P l1 k1 /\ Forall2 P l2 k2.
  Proof.
    revert k1. induction l1 as [|a l1 IH]; intros [|b k1] Hl F; try discriminate; cbn [app] in F; inversion F; subst.
    - auto.
    - injection Hl as Hl. destruct (IH k1 Hl); auto.
  Qed.

  (** live allocations are unaffected *)
  Lemma vrel_frame (m m' : boxes K V) x y : (forall id, In id (match y with Some (id, _) => [id] | None => [] end) -> nth_error m' id = nth_error m id) ->
    vrel m x y -> vrel m' x y.
  Proof.
    destruct x as [o|], y as [[id l]|]; cbn [vrel]; auto. intros H [B (t & st & n & p & N & F & I & Hn)].
    split; [exact B|]. exists t, st, n, p. specialize (H id (or_introl eq_refl)). split; [now rewrite H|].
    split; [|auto]. eapply F2_imp; [|exact F]. intros r z _ (E1 & E2 & E3). split; [exact E1|]. split; [|exact E3].
    unfold deref in *. rewrite E1 in *. now rewrite H.
  Qed.
  Lemma In_ids_of y vars id : In y vars -> In id (match y with Some (id, _) => [id] | None => [] end) -> In id (ids vars).
  Proof.
    induction vars as [|[[i e]|] l IH]; cbn [In ids]; [easy| |]; intros [<-|Hy] H.
    - destruct H as [<-|[]]. now left.
    - right. auto.
    - destruct H.
    - auto.
  Qed.

  Lemma step_ok op o s : inv o s -> fst (o_step op o) = fst (i_step op s) /\ inv (snd (o_step op o)) (snd (i_step op s)).
  Proof.
    intros [I1 I2 I3 I4 I5]. destruct op as [t|i|i|i|j]; cbn [o_step i_step].
    - rewrite (iter_from_ok t (t_prefix t) : rt_iter t = Ok _). unfold oi_new. cbn [fst snd]. split; [reflexivity|].
      assert (Hn : ~ In (i_made s) (ids (i_vars s))).
      { intros H. rewrite <- I1 in H. clear - H I2. revert H. induction I2 as [|x y l l' V0 _ IH]; cbn [ids]; [easy|].
        destruct y as [[id e]|]; [|auto]. cbn [In]. intros [->|H]; [|auto].
        destruct x as [o'|]; cbn [vrel] in V0; [|easy]. destruct V0 as [_ (t' & _ & _ & _ & N & _)].
        rewrite (proj2 (nth_error_None _ _)) in N by lia. discriminate. }
      assert (Fr : forall id, In id (ids (i_vars s)) -> nth_error (o_mem o ++ [Some t]) id = nth_error (o_mem o) id).
      { intros id H. apply nth_error_app1. clear - H I2. revert H. induction I2 as [|x y l l' V0 _ IH]; cbn [ids]; [easy|].
        destruct y as [[id' e]|]; [|auto]. cbn [In]. intros [->|H]; [|auto].
        destruct x as [o'|]; cbn [vrel] in V0; [|easy]. destruct V0 as [_ (t' & _ & _ & _ & N & _)].
        apply nth_error_Some. now rewrite N. }
      constructor; cbn [o_mem o_vars o_refs i_made i_vars i_refs].
      + rewrite app_length, I1. cbn [length]. lia.
      + apply Forall2_app.
        * eapply F2_imp; [|exact I2]. intros x y Hy. apply vrel_frame. intros id Hid. apply Fr. eapply In_ids_of; eauto.
        * constructor; [|constructor]. cbn [vrel oi_box oi_path oi_stack]. split; [exact I1|].
          exists t, [(t, 0)], (cost t), (key_pop (t_prefix t) (length (t_prefix t))). rewrite <- I1.
          rewrite nth_error_app2, Nat.sub_diag by lia. split; [reflexivity|]. split; [|split; [apply iter_tree|unfold cost; lia]].
          constructor; [|constructor]. split; [reflexivity|]. split; [|reflexivity]. unfold deref. cbn [fst snd].
          rewrite nth_error_app2, Nat.sub_diag by lia. reflexivity.
      + rewrite ids_app. cbn [ids]. rewrite <- (rev_involutive (ids (i_vars s) ++ _)), rev_app_distr. apply NoDup_rev. cbn [rev app]. constructor.
        * now rewrite <- in_rev.
        * now apply NoDup_rev.
      + intros id t' N. rewrite ids_app, in_app_iff. cbn [ids]. destruct (Nat.eq_dec id (length (o_mem o))) as [->|D].
        * right. left. now rewrite I1.
        * left. apply (I4 id t'). rewrite <- N. symmetry. apply nth_error_app1.
          assert (id < length (o_mem o ++ [Some t])) by (apply nth_error_Some; now rewrite N).
          rewrite app_length in H. cbn [length] in H. lia.
      + eapply F2_imp; [|exact I5]. intros r x _ (E1 & E2 & E3). split; [exact E1|]. rewrite app_length. cbn [length].
        split; [lia|]. intros t'. rewrite nth_error_app1 by exact E2. apply E3.
    - pose proof (F2_nth _ _ _ I2 i) as Q. destruct (nth_error (o_vars o) i) as [[ob|]|] eqn:N1;
        destruct (nth_error (i_vars s) i) as [[[id l]|]|] eqn:N2; try (exfalso; exact Q); try (split; [reflexivity|now constructor]).
      destruct Q as [B (t & st & n & p & Nm & F & Ir & Hn)].
      unfold oi_fuel. rewrite B, Nm. destruct ob as [bx path sr]. cbn [oi_box oi_path oi_stack] in *. subst bx.
      pose proof (oi_next_ok (o_mem o) id (S (3 * t_size t)) path sr st n l p F Ir ltac:(lia)) as G.
      apply nth_error_split in N1 as (l1 & l2 & E1 & L1). apply nth_error_split in N2 as (k1 & k2 & E2 & L2).
      pose proof I2 as V0. rewrite E1, E2 in V0. apply F2_split in V0; [|congruence].
      destruct V0 as [V1 V2].
      destruct l as [|[k v] l].
      + destruct G as (ob & -> & Hb & Hs). cbn [fst snd]. split; [reflexivity|].
        constructor; cbn [o_mem o_vars o_refs]; auto. rewrite E1, E2, <- L1, set_var_mid.
        apply Forall2_app; [exact V1|]. constructor; [|exact V2]. cbn [vrel]. split; [exact Hb|].
        exists t, [], 0, (oi_path ob). rewrite Hs. split; [exact Nm|]. split; [constructor|]. split; [constructor|lia].
      + destruct G as (r & ob & st' & n' & nd & -> & Hb & Hr & Hd & Hv & F' & Ir' & Hn'). cbn [fst snd]. split; [reflexivity|].
        constructor; cbn [o_mem o_vars o_refs i_made i_vars i_refs]; auto.
        * rewrite E1, E2. rewrite <- L1 at 1. rewrite <- L2 at 1. rewrite !set_var_mid. apply Forall2_app; [exact V1|]. constructor; [|exact V2].
          cbn [vrel]. split; [exact Hb|]. exists t, st', n', p. split; [exact Nm|]. split; [exact F'|]. split; [exact Ir'|lia].
        * rewrite E2, <- L2, set_var_mid. rewrite E2 in I3. rewrite ids_app in *. exact I3.
        * intros id' t' N'. specialize (I4 id' t' N'). rewrite E2, <- L2, set_var_mid. rewrite E2 in I4. rewrite ids_app in *. exact I4.
        * apply Forall2_app; [exact I5|]. constructor; [|constructor]. unfold deref in Hd. split; [exact Hr|]. cbn [fst snd].
          split; [apply nth_error_Some; intros X; rewrite X in Hd; discriminate|].
          intros t' N'. rewrite N' in Hd. eauto.
    - pose proof (F2_nth _ _ _ I2 i) as Q. destruct (nth_error (o_vars o) i) as [[ob|]|] eqn:N1;
        destruct (nth_error (i_vars s) i) as [[[id l]|]|] eqn:N2; try (exfalso; exact Q); try (split; [reflexivity|now constructor]).
      cbn [fst snd]. split; [reflexivity|].
      apply nth_error_split in N1 as (l1 & l2 & E1 & L1). apply nth_error_split in N2 as (k1 & k2 & E2 & L2).
      pose proof I2 as V0. rewrite E1, E2 in V0. apply F2_split in V0; [|congruence].
      destruct V0 as [V1 V2].
      assert (P : forall z, In z (ids (set_var i None (i_vars s) ++ [Some (id, l)])) <-> In z (ids (i_vars s))).
      { intros z. rewrite E2, <- L2, set_var_mid. rewrite !ids_app, !in_app_iff. cbn [ids In]. tauto. }
      constructor; cbn [o_mem o_vars o_refs i_made i_vars i_refs]; auto.
      + rewrite E1, E2. rewrite <- L1 at 1. rewrite <- L2 at 1. rewrite !set_var_mid. apply Forall2_app; [|constructor; [exact Q|constructor]].
        apply Forall2_app; [exact V1|]. constructor; [exact I|exact V2].
      + rewrite E2, <- L2, set_var_mid. rewrite E2 in I3. rewrite !ids_app in *. cbn [ids] in *.
        apply NoDup_remove in I3 as [I3 I3']. rewrite <- (rev_involutive ((_ ++ _) ++ [id])). apply NoDup_rev.
        rewrite rev_app_distr. cbn [rev app]. constructor; [now rewrite <- in_rev|now apply NoDup_rev].
      + intros id' t' N'. apply P. eauto.
    - pose proof (F2_nth _ _ _ I2 i) as Q. destruct (nth_error (o_vars o) i) as [[ob|]|] eqn:N1;
        destruct (nth_error (i_vars s) i) as [[[id l]|]|] eqn:N2; try (exfalso; exact Q); try (split; [reflexivity|now constructor]).
      cbn [fst snd]. split; [reflexivity|].
      apply nth_error_split in N1 as (l1 & l2 & E1 & L1). apply nth_error_split in N2 as (k1 & k2 & E2 & L2).
      pose proof I2 as V0. rewrite E1, E2 in V0. apply F2_split in V0; [|congruence].
      destruct V0 as [V1 V2]. destruct Q as [B (t & st & n & p & Nm & _)].
      assert (Hlt : id < length (o_mem o)) by (apply nth_error_Some; now rewrite Nm).
      assert (Fr : forall a, nth_error (box_free (o_mem o) (oi_box ob)) a = if a =? id then Some None else nth_error (o_mem o) a).
      { intros a. rewrite B. unfold box_free. assert (Lf : length (firstn id (o_mem o)) = id) by (rewrite firstn_length; lia).
        destruct (Nat.eqb_spec a id) as [->|D].
        - rewrite nth_error_app2, Lf, Nat.sub_diag by lia. reflexivity.
        - destruct (Nat.lt_ge_cases a id) as [Hl|Hg].
          + rewrite nth_error_app1 by lia. rewrite <- (firstn_skipn id (o_mem o)) at 2. now rewrite nth_error_app1 by lia.
          + rewrite nth_error_app2, Lf by lia. destruct (a - id) as [|z] eqn:Ez; [lia|]. cbn [nth_error].
            rewrite <- (firstn_skipn (S id) (o_mem o)) at 2. assert (Lf2 : length (firstn (S id) (o_mem o)) = S id) by (rewrite firstn_length; lia).
            rewrite nth_error_app2, Lf2 by lia. f_equal. lia. }
      rewrite E2 in I3. rewrite ids_app in I3. cbn [ids] in I3. apply NoDup_remove in I3 as [I3 I3'].
      assert (V3 : forall l k, Forall2 (vrel (o_mem o)) l k -> (forall z, In z (ids k) -> z <> id) ->
                   Forall2 (vrel (box_free (o_mem o) (oi_box ob))) l k).
      { intros l0 k0 F0 Hz. eapply F2_imp; [|exact F0]. intros x y Hy. apply vrel_frame. intros z Hid. rewrite Fr.
        destruct (Nat.eqb_spec z id) as [->|]; [|reflexivity]. exfalso. eapply (Hz id); [|reflexivity]. eapply In_ids_of; eauto. }
      constructor; cbn [o_mem o_vars o_refs i_made i_vars i_refs].
      + rewrite <- I1. rewrite B. unfold box_free. rewrite app_length, firstn_length. cbn [length]. rewrite skipn_length. lia.
      + rewrite E1, E2. rewrite <- L1 at 1. rewrite <- L2 at 1. rewrite !set_var_mid. rewrite in_app_iff in I3'.
        apply Forall2_app; [|constructor; [exact I|]]; apply V3; auto; intros z Hz ->; tauto.
      + rewrite E2, <- L2, set_var_mid, ids_app. exact I3.
      + intros id' t' N'. rewrite Fr in N'. destruct (Nat.eqb_spec id' id) as [|D]; [discriminate|].
        specialize (I4 id' t' N'). rewrite E2 in I4. rewrite E2, <- L2, set_var_mid. rewrite ids_app, in_app_iff in *. cbn [ids In] in *.
        destruct I4 as [|[|]]; [tauto|congruence|tauto].
      + eapply F2_imp; [|exact I5]. intros r x _ (X1 & X2 & X3). split; [exact X1|]. split.
        * rewrite B. unfold box_free. rewrite app_length, firstn_length. cbn [length]. rewrite skipn_length. lia.
        * intros t'. rewrite Fr. destruct (_ =? id); [discriminate|]. apply X3.
    - pose proof (F2_nth _ _ _ I5 j) as Q. destruct (nth_error (o_refs o) j) as [r|]; destruct (nth_error (i_refs s) j) as [[id v]|];
        try (exfalso; exact Q); [|split; [reflexivity|now constructor]].
      destruct Q as (Q1 & Q2 & Q3). cbn [fst snd] in *. unfold deref.
      destruct (nth_error (o_mem o) (fst r)) as [[t|]|] eqn:N.
      + destruct (Q3 t eq_refl) as (nd & -> & ->). rewrite (proj2 (in_use_ids id (i_vars s))); [split; [reflexivity|now constructor]|].
        rewrite <- Q1. eauto.
      + assert (U : in_use id (i_vars s) = false).
        { destruct (in_use id (i_vars s)) eqn:U; [|reflexivity]. apply in_use_ids in U. exfalso. subst id. clear - U I2 N.
          revert U. induction I2 as [|x y l l' V0 _ IH]; cbn [ids]; [easy|]. destruct y as [[id' e]|]; [|auto].
          intros [->|U]; [|auto]. destruct x as [o'|]; cbn [vrel] in V0; [|easy]. destruct V0 as [_ (t' & _ & _ & _ & N' & _)]. congruence. }
        rewrite U. split; [reflexivity|now constructor].
      + apply nth_error_None in N. lia.
  Qed.
  Lemma run_ok ops : forall o s, inv o s -> o_run ops o = i_run ops s.
  Proof.
    induction ops as [|op ops IH]; intros o s H; cbn [o_run i_run]; [reflexivity|].
    destruct (step_ok op o s H) as [E H']. destruct (o_step op o) as [b o'], (i_step op s) as [b' s']. cbn [fst snd] in *. subst b'.
    f_equal. auto.
  Qed.
  Lemma inv_init : inv o_init i_init.
  Proof. constructor; cbn; [reflexivity|constructor|constructor|intros [|] ?; discriminate|constructor]. Qed.
End Proof.

(** ** C113 *)
(** Every program that makes, moves, advances and drops such iterators and reads what they yielded, at any time: what it
    observes. *)
Theorem C113_programs : forall (K V : Type) (ops : list (oop K V)), o_run ops o_init = i_run ops i_init.
Proof. intros K V ops. apply run_ok, inv_init. Qed.
Print Assumptions C113_programs.

(** [into_iter] gives the keys [iter] gives, in the same order, and then None for ever; what it yielded can be read
    while the iterator lives, wherever it has been moved *)
Fixpoint reads (n : nat) {K V : Type} : list (oop K V) :=
  match n with 0 => [] | S n' => reads n' ++ [ORead n'] end.
Theorem C113_into_iter_like_iter :
  forall (K V : Type) (t : rtree K V) (l : list (list K * V)) (more : nat), rt_iter t = Ok l ->
    o_run (OInto t :: repeat (ONext 0) (length l + more) ++ [OMove 0] ++ reads (length l)) o_init =
      Quiet :: map (fun kv => Item (fst kv)) l ++ repeat NoMore more ++ [Quiet] ++ map (fun kv => Value (snd kv)) l.
Proof.
  intros K V t l more H. rewrite C113_programs. cbn [i_run i_step]. unfold i_init at 1. rewrite H. f_equal. cbn [i_made i_vars i_refs app].
  assert (A : forall l refs rest, i_run (repeat (ONext 0) (length l + more) ++ rest) (MkI 1 [Some (0, l)] refs) =
    map (fun kv => Item (fst kv)) l ++ repeat NoMore more ++
    i_run (V := V) rest (MkI 1 [Some (0, [])] (refs ++ map (fun kv : list K * V => (0, snd kv)) l))).
  { clear H l. induction l as [|[k v] l IH]; intros refs rest.
    - cbn [length Nat.add map app]. rewrite app_nil_r. induction more as [|m IHm]; cbn [repeat app]; [reflexivity|].
      cbn [i_run i_step nth_error i_vars]. f_equal. exact IHm.
    - cbn [length Nat.add repeat app map]. cbn [i_run i_step nth_error i_vars i_made i_refs]. f_equal.
      unfold set_var. cbn [firstn skipn app]. rewrite IH, <- app_assoc. reflexivity. }
  cbn [i_init i_made i_vars i_refs]. change (MkI 0 [] []) with (@i_init K V) in *. unfold i_init in *. cbn [i_made] in *.
  rewrite (A l [] _). f_equal. f_equal. cbn [app i_run i_step nth_error i_vars i_made i_refs]. f_equal. unfold set_var. cbn [firstn skipn app].
  assert (B : forall n (vars : list (option (nat * list (list K * V)))) refs, n <= length refs ->
    in_use 0 vars = true -> (forall x, In x refs -> fst x = 0) ->
    i_run (reads n) (MkI 1 vars refs) = map (fun x : nat * V => @Value K V (snd x)) (firstn n refs)).
  { assert (R : forall a b s, (forall op s', In op (a ++ b) -> snd (i_step op s') = s' \/ s' <> s) ->
              (forall op, In op (a ++ b) -> snd (i_step op s) = s) -> i_run (a ++ b) s = i_run a s ++ i_run b (V := V) (K := K) s).
    { induction a as [|op a IHa]; intros b s Hx Hy; cbn [app i_run]; [reflexivity|].
      pose proof (Hy op (or_introl eq_refl)) as E. destruct (i_step op s) as [ob s']. cbn [snd] in E. subst s'. cbn [app]. f_equal.
      apply IHa; intros; [apply Hx|apply Hy]; now right. }
    induction n as [|n IHn]; intros vars refs Hn U Z; cbn [reads]; [reflexivity|].
    assert (Rd : forall m, Forall (fun op : oop K V => exists j, op = ORead j) (reads m)).
    { induction m; cbn [reads]; [constructor|]. apply Forall_app. split; [assumption|]. constructor; [eauto|constructor]. }
    assert (St : forall op s', In op (reads n ++ [@ORead K V n]) -> snd (i_step op s') = s').
    { intros op s' Hin. pose proof (Rd (S n)) as Q. cbn [reads] in Q. rewrite Forall_forall in Q. destruct (Q op Hin) as [j ->].
      cbn [i_step]. destruct (nth_error (i_refs s') j) as [[]|]; reflexivity. }
    rewrite R by (intros; try left; apply St; assumption). rewrite IHn by (auto; lia).
    cbn [i_run i_step i_refs]. destruct (nth_error refs n) as [[id v]|] eqn:N; [|apply nth_error_None in N; lia].
    assert (id = 0) as -> by (apply (Z (id, v)); eapply nth_error_In; eauto). cbn [i_vars]. rewrite U.
    apply nth_error_split in N as (r1 & r2 & -> & <-).
    replace (S (length r1)) with (length r1 + 1) by lia. rewrite firstn_app, firstn_all, Nat.sub_diag. cbn [firstn]. rewrite app_nil_r.
    rewrite firstn_app, firstn_all2 by lia. replace (length r1 + 1 - length r1) with 1 by lia. cbn [firstn]. now rewrite map_app. }
  rewrite B; [|now rewrite map_length|reflexivity|].
  - rewrite firstn_all2 by (rewrite map_length; lia). now rewrite map_map.
  - intros x Hx. apply in_map_iff in Hx as (y & <- & _). reflexivity.
Qed.
Print Assumptions C113_into_iter_like_iter.

(** As long as no iterator is dropped nothing is undefined, *)
Theorem C113_safe_without_drop_partial :
  forall (K V : Type) (ops : list (oop K V)), (forall i, ~ In (ODrop i) ops) -> ~ In Ub (o_run ops o_init).
Proof.
  intros K V ops N. rewrite C113_programs.
  assert (A : forall ops s, (forall i, ~ In (ODrop i) ops) ->
    (forall x, In x (i_refs s) -> in_use (fst x) (i_vars s) = true) -> ~ In (@Ub K V) (i_run ops s)).
  { clear. induction ops as [|op ops IH]; intros s N H; [easy|]. cbn [i_run].
    assert (St : fst (i_step op s) <> Ub /\ forall x, In x (i_refs (snd (i_step op s))) -> in_use (fst x) (i_vars (snd (i_step op s))) = true).
    { destruct op as [t|i|i|i|j]; cbn [i_step].
      - rewrite (iter_from_ok t (t_prefix t) : rt_iter t = Ok _). cbn [fst snd i_refs i_vars]. split; [discriminate|].
        intros x Hx. unfold in_use. rewrite existsb_app, orb_true_iff. left. now apply H.
      - destruct (nth_error (i_vars s) i) as [[[id [|[k v] l]]|]|] eqn:E; cbn [fst snd i_refs i_vars]; try (split; [discriminate|exact H]).
        split; [discriminate|]. apply nth_error_split in E as (k1 & k2 & E & L). rewrite E, <- L, set_var_mid.
        intros x Hx. apply in_use_ids. rewrite ids_app. cbn [ids]. apply in_app_iff in Hx as [Hx|[<-|[]]].
        + apply H, in_use_ids in Hx. rewrite E, ids_app in Hx. exact Hx.
        + apply in_app_iff. right. now left.
      - destruct (nth_error (i_vars s) i) as [[[id l]|]|] eqn:E; cbn [fst snd i_refs i_vars]; try (split; [discriminate|exact H]).
        split; [discriminate|]. apply nth_error_split in E as (k1 & k2 & E & L). rewrite E, <- L, set_var_mid.
        intros x Hx. apply in_use_ids. apply H, in_use_ids in Hx. rewrite E in Hx. rewrite !ids_app, !in_app_iff in *. cbn [ids In] in *. tauto.
      - exfalso. apply (N i). now left.
      - destruct (nth_error (i_refs s) j) as [[id v]|] eqn:E; cbn [fst snd]; [|split; [discriminate|exact H]].
        pose proof (H (id, v) (nth_error_In _ _ E)) as U. cbn [fst] in U. rewrite U. split; [discriminate|exact H]. }
    destruct (i_step op s) as [b s']. cbn [fst snd] in St. destruct St as [S1 S2]. intros [E|E]; [congruence|].
    eapply (IH s'); [|exact S2|exact E]. intros i Hi. apply (N i). now right. }
  apply A; [exact N|]. intros x [].
Qed.
Print Assumptions C113_safe_without_drop_partial.

(** ... but the claim that safe code cannot observe anything undefined is false, for every tree with an entry: the value
    outlives the iterator in the types, not in memory *)
Theorem C113_values_outlive_iterator_refuted :
  (forall (K V : Type) (t : rtree K V) k v l, rt_iter t = Ok ((k, v) :: l) ->
     o_run [OInto t; ONext 0; ORead 0; ODrop 0; ORead 0] o_init = [Quiet; Item k; Value v; Quiet; Ub]) /\
  ~ (forall (K V : Type) (ops : list (oop K V)), ~ In Ub (o_run ops o_init)).
Proof.
  assert (A : forall (K V : Type) (t : rtree K V) k v l, rt_iter t = Ok ((k, v) :: l) ->
     o_run [OInto t; ONext 0; ORead 0; ODrop 0; ORead 0] o_init = [Quiet; Item k; Value v; Quiet; Ub]).
  { intros K V t k v l H. rewrite C113_programs. cbn [i_run i_step]. rewrite H. reflexivity. }
  split; [exact A|]. intros H. apply (H nat nat [OInto (Node [1] (Some 5) []); ONext 0; ORead 0; ODrop 0; ORead 0]).
  rewrite (A nat nat (Node [1] (Some 5) []) [1] 5 []) by reflexivity. cbn [In]. auto 6.
Qed.
Print Assumptions C113_values_outlive_iterator_refuted.

(** the hypotheses are met *)
Example C113_witness :
  rt_iter (Node [1] None [Node [2] (Some 5) []; Node [3; 4] (Some 6) [Node [7] (Some 8) []]]) =
    Ok [([1; 2], 5); ([1; 3; 4], 6); ([1; 3; 4; 7], 8)] /\
  o_run [OInto (Node [1] None [Node [2] (Some 5) []; Node [3; 4] (Some 6) [Node [7] (Some 8) []]]);
         OInto (Node [9] (Some 9) []); ONext 0; ONext 1; OMove 0; ONext 2; ODrop 1; ONext 2; ONext 2; ONext 0;
         ORead 3; ORead 0; ORead 1] o_init =
    [Quiet; Quiet; Item [1; 2]; Item [9]; Quiet; Item [1; 3; 4]; Quiet; Item [1; 3; 4; 7]; NoMore; NotRust;
     Value 8; Value 5; Ub].
Proof. split; vm_compute; reflexivity. Qed.

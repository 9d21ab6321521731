(** Facts about listings and joins of listings. *)
From Verif Require Export RadixEffSpec RadixFind.

Section EffFacts.
  Context {K : Type} {kcmp : K -> K -> comparison} (L : OrdLaws kcmp) (EQ : OrdEq kcmp) {E : Type}.
  Notation lex := (lex kcmp).
  Notation wf := (wf kcmp).

  Definition own {V} (ov : option V) : list (list K * V) := match ov with Some v => [([], v)] | None => [] end.
  Notation flat := (flat_map listing).

  Lemma listing_node {V} p ov (cs : list (rtree K V)) :
    listing (Node p ov cs) = map (under p) (own ov ++ flat cs).
  Proof. reflexivity. Qed.
  Lemma under_app {V} p q (l : list (list K * V)) : map (under (p ++ q)) l = map (under p) (map (under q) l).
  Proof. rewrite map_map. apply map_ext. intros [k v]. unfold under. cbn. now rewrite app_assoc. Qed.
  Lemma under_nil {V} (l : list (list K * V)) : map (under []) l = l.
  Proof. rewrite <- (map_id l) at 2. apply map_ext. now intros []. Qed.
  Lemma listing_app {V} p q ov (cs : list (rtree K V)) :
    listing (Node (p ++ q) ov cs) = map (under p) (listing (Node q ov cs)).
  Proof. rewrite !listing_node. apply under_app. Qed.

  Lemma enum_listing {V} (t : rtree K V) : forall path,
    enum path t = map (under path) (own (t_value t) ++ flat (t_children t)).
  Proof.
    induction t as [p ov cs IH] using rtree_ind'. intros path. rewrite enum_node, map_app. f_equal.
    - destruct ov; cbn; auto. unfold under. cbn. now rewrite app_nil_r.
    - cbn [t_children]. unfold enums. induction IH as [|c cs Hc H IHc]; auto. cbn [flat_map]. rewrite map_app, <- IHc. f_equal.
      rewrite Hc. destruct c as [q w ds]. cbn [t_prefix t_value t_children]. now rewrite listing_node, under_app.
  Qed.
  Lemma iter_listing {V} (t : rtree K V) : rt_iter t = Ok (listing t).
  Proof.
    unfold rt_iter. rewrite iter_from_ok, enum_listing. destruct t as [p ov cs]. reflexivity.
  Qed.
  Lemma listing_sorted {V} (t : rtree K V) : wf false t -> sorted lex (map fst (listing t)).
  Proof.
    intros W. replace (listing t) with (enum (t_prefix t) t); [now apply (enum_sorted (kcmp := kcmp) EQ)|].
    rewrite enum_listing. destruct t as [p ov cs]. reflexivity.
  Qed.
  Lemma listing_empty {V} (t : rtree K V) : t_is_empty t = true -> listing t = [].
  Proof. destruct t as [p [v|] [|c cs]]; try discriminate. reflexivity. Qed.
  Lemma flat_filter {V} (cs : list (rtree K V)) : flat (filter (fun x => negb (t_is_empty x)) cs) = flat cs.
  Proof.
    induction cs as [|c cs IH]; auto. cbn [filter flat_map]. destruct (t_is_empty c) eqn:Q; cbn [negb].
    - rewrite IH. now rewrite (listing_empty c).
    - cbn [flat_map]. now rewrite IH.
  Qed.
  Lemma listing_prepend {V} (t : rtree K V) p : listing (rt_prepend t p) = map (under p) (listing t).
  Proof.
    destruct t as [q v cs]. unfold rt_prepend. destruct p as [|x p]; [now rewrite under_nil|].
    destruct (t_is_empty (Node q v cs)) eqn:Q.
    - now rewrite listing_empty by auto.
    - apply listing_app.
  Qed.
  Lemma listing_unsplit {V} p v (cs : list (rtree K V)) : listing (t_unsplit (Node p v cs)) = listing (Node p v cs).
  Proof.
    rewrite listing_node, <- flat_filter.
    destruct (unsplit_cases p v cs) as [(c & -> & E1 & ->)|[(-> & E1 & ->)|(H & ->)]].
    - rewrite listing_prepend, E1. cbn. now rewrite app_nil_r.
    - rewrite E1. reflexivity.
    - rewrite listing_node. now rewrite flat_filter.
  Qed.

  (** keys of the listing of a child begin with its head *)
  Lemma listing_head {V} (t : rtree K V) k v h : hd_of t = Some h -> In (k, v) (listing t) -> exists r, k = h :: r.
  Proof.
    destruct t as [p ov cs]. unfold hd_of. cbn [t_prefix]. destruct p as [|x p]; [discriminate|]. intros [= ->].
    rewrite listing_node. intros H. apply in_map_iff in H as ([k' v'] & [= <- <-] & _). cbn. eauto.
  Qed.

  (** ** joins *)
  Section Join.
    Context {V W : Type} (ka : bool) (hb : W -> option V) (f : mclos E V W).
    Notation join := (join kcmp ka hb f).
    Notation lo := (left_only (K := K) (V := V) ka).
    Notation ro := (right_only (K := K) hb).

    Lemma join_nil_r a e : join a [] e = (flat_map lo a, e, None).
    Proof. induction a as [|x a IH]; cbn [RadixEffSpec.join]; auto. rewrite IH. reflexivity. Qed.
    Lemma join_nil_l b e : join [] b e = (flat_map ro b, e, None).
    Proof.
      induction b as [|y b IH]; [reflexivity|].
      transitivity (emit (ro y) (join [] b e)); [reflexivity|]. now rewrite IH.
    Qed.
    Lemma join_cons x a y b e : join (x :: a) (y :: b) e =
      match lex (fst x) (fst y) with
      | Lt => emit (lo x) (join a (y :: b) e)
      | Gt => emit (ro y) (join (x :: a) b e)
      | Eq => let '(e', v, r) := f e (snd x) (snd y) in
              match r with
              | Throw => ([], e', Some (fst x, v))
              | Ret true => emit [(fst x, v)] (join a b e')
              | Ret false => join a b e'
              end
      end.
    Proof. reflexivity. Qed.

    Definition jthen (r : list (list K * V) * E * ending V) (k : E -> list (list K * V) * E * ending V) :=
      match r with
      | (o, e, None) => emit o (k e)
      | (o, e, Some p) => (o, e, Some p)
      end.
    Lemma emit_emit (l m : list (list K * V)) (r : list (list K * V) * E * ending V) : emit l (emit m r) = emit (l ++ m) r.
    Proof. destruct r as [[o e] p]. cbn. now rewrite app_assoc. Qed.
    Lemma emit_nil (r : list (list K * V) * E * ending V) : emit [] r = r.
    Proof. now destruct r as [[o e] p]. Qed.
    Lemma jthen_emit l r k : jthen (emit l r) k = emit l (jthen r k).
    Proof. destruct r as [[o e] [p|]]; cbn; auto. now rewrite emit_emit. Qed.

    Definition before {X Y} (a : list (list K * X)) (b : list (list K * Y)) : Prop :=
      forall x y, In x a -> In y b -> lex (fst x) (fst y) = Lt.
    Lemma lex_opp a : forall b, lex b a = CompOpp (lex a b).
    Proof.
      induction a as [|x a IH]; intros [|y b]; simpl; auto.
      rewrite (ord_opp L x y). destruct (kcmp x y); simpl; auto.
    Qed.
    Lemma join_app_a a1 a2 b e : before a1 b -> join (a1 ++ a2) b e = emit (flat_map lo a1) (join a2 b e).
    Proof.
      induction a1 as [|x a1 IH]; intros H; cbn [app flat_map].
      - now rewrite emit_nil.
      - rewrite <- emit_emit, <- IH by (intros ? ? ? ?; apply H; simpl; auto).
        destruct b as [|y b]; [reflexivity|]. rewrite join_cons, H by (simpl; auto). reflexivity.
    Qed.
    Lemma lex_gt x y : lex x y = Lt -> lex y x = Gt.
    Proof. intros H. rewrite lex_opp, H. reflexivity. Qed.
    Lemma join_app_b a b1 b2 e : before b1 a -> join a (b1 ++ b2) e = emit (flat_map ro b1) (join a b2 e).
    Proof.
      induction b1 as [|y b1 IH]; intros H; cbn [app flat_map].
      - now rewrite emit_nil.
      - rewrite <- emit_emit, <- IH by (intros ? ? ? ?; apply H; simpl; auto).
        destruct a as [|x a]; [reflexivity|]. rewrite join_cons.
        rewrite lex_gt by (apply H; simpl; auto). reflexivity.
    Qed.
    Lemma join_app a1 b1 a2 b2 e : before a1 b2 -> before b1 a2 ->
      join (a1 ++ a2) (b1 ++ b2) e = jthen (join a1 b1 e) (join a2 b2).
    Proof.
      revert b1 e. induction a1 as [|x a1 IHa]; intros b1; induction b1 as [|y b1 IHb]; intros e Ha Hb.
      - cbn. now rewrite emit_nil.
      - cbn [app]. rewrite join_nil_l. cbn [jthen]. change (y :: b1 ++ b2) with ((y :: b1) ++ b2). rewrite join_app_b; auto.
      - rewrite join_nil_r. cbn [jthen]. rewrite join_app_a; auto.
      - cbn [app]. rewrite !join_cons.
        destruct (lex (fst x) (fst y)).
        + destruct (f e (snd x) (snd y)) as [[e' v] [[|]|]]; [rewrite jthen_emit| |reflexivity].
          * f_equal. apply IHa; intros ? ? ? ?; [apply Ha|apply Hb]; simpl; auto.
          * apply IHa; intros ? ? ? ?; [apply Ha|apply Hb]; simpl; auto.
        + rewrite jthen_emit. f_equal. change (y :: b1 ++ b2) with ((y :: b1) ++ b2). apply IHa; auto.
          intros ? ? ? ?; apply Ha; simpl; auto.
        + rewrite jthen_emit. f_equal. apply IHb; auto. intros ? ? ? ?; apply Hb; simpl; auto.
    Qed.

    Definition jmap (p : list K) (r : list (list K * V) * E * ending V) : list (list K * V) * E * ending V :=
      let '(o, e, q) := r in (map (under p) o, e, option_map (under p) q).
    Lemma jmap_emit p l r : jmap p (emit l r) = emit (map (under p) l) (jmap p r).
    Proof. destruct r as [[o e] q]. cbn. now rewrite map_app. Qed.
    Lemma lo_under p x : lo (under p x) = map (under p) (lo x).
    Proof. unfold left_only. now destruct ka. Qed.
    Lemma ro_under p y : ro (under p y) = map (under p) (ro y).
    Proof. unfold right_only. cbn. now destruct (hb (snd y)). Qed.
    Lemma flat_lo_under p l : flat_map lo (map (under p) l) = map (under p) (flat_map lo l).
    Proof. induction l as [|z l IH]; auto. cbn [map flat_map]. now rewrite map_app, IH, lo_under. Qed.
    Lemma flat_ro_under p l : flat_map ro (map (under p) l) = map (under p) (flat_map ro l).
    Proof. induction l as [|z l IH]; auto. cbn [map flat_map]. now rewrite map_app, IH, ro_under. Qed.
    Lemma join_under p a b e : join (map (under p) a) (map (under p) b) e = jmap p (join a b e).
    Proof.
      revert b e. induction a as [|x a IHa]; intros b; induction b as [|y b IHb]; intros e; auto.
      - change (map (under p) []) with (@nil (list K * V)). rewrite !join_nil_l. unfold jmap. now rewrite flat_ro_under.
      - change (map (under p) []) with (@nil (list K * W)). rewrite !join_nil_r. unfold jmap. now rewrite flat_lo_under.
      - cbn [map]. rewrite !join_cons. cbn [under fst snd]. rewrite (lex_app EQ).
        destruct (lex (fst x) (fst y)).
        + destruct (f e (snd x) (snd y)) as [[e' v] [[|]|]]; [rewrite jmap_emit| |reflexivity]; now rewrite IHa.
        + rewrite jmap_emit, <- IHa. cbn [map]. fold (under p x). now rewrite lo_under.
        + rewrite jmap_emit, <- IHb. cbn [map]. fold (under p y). now rewrite ro_under.
    Qed.

    Lemma flat_lo_keys k l : In k (map fst (flat_map lo l)) -> In k (map fst l).
    Proof.
      induction l as [|z l IH]; [auto|]. cbn [flat_map map]. rewrite map_app. intros H. apply in_app_or in H as [H|H]; [|right; auto].
      unfold left_only in H. destruct ka; [|destruct H]. destruct H as [<-|[]]. now left.
    Qed.
    Lemma flat_ro_keys k l : In k (map fst (flat_map ro l)) -> In k (map fst l).
    Proof.
      induction l as [|z l IH]; [auto|]. cbn [flat_map map]. rewrite map_app. intros H. apply in_app_or in H as [H|H]; [|right; auto].
      unfold right_only in H. destruct (hb (snd z)); [|destruct H]. destruct H as [<-|[]]. now left.
    Qed.
    (** keys produced come from the operands; the panicking key is in both *)
    Lemma join_keys a b e o e' q : join a b e = (o, e', q) ->
      (forall k, In k (map fst o) -> In k (map fst a) \/ In k (map fst b)) /\
      (forall k v, q = Some (k, v) -> In k (map fst a) /\ exists k', In k' (map fst b) /\ lex k k' = Eq).
    Proof.
      revert b e o e' q. induction a as [|x a IHa]; intros b; induction b as [|y b IHb]; intros e o e' q.
      - cbn. intros [= <- <- <-]. split; [intros ? []|discriminate].
      - rewrite join_nil_l. intros Q. pose proof (f_equal (fun z => fst (fst z)) Q) as Q1. cbn [fst] in Q1. pose proof (f_equal snd Q) as Q2. cbn [snd] in Q2.
        split; [|congruence]. intros k Hk. right. apply flat_ro_keys. now rewrite Q1.
      - rewrite join_nil_r. intros Q. pose proof (f_equal (fun z => fst (fst z)) Q) as Q1. cbn [fst] in Q1. pose proof (f_equal snd Q) as Q2. cbn [snd] in Q2.
        split; [|congruence]. intros k Hk. left. apply flat_lo_keys. now rewrite Q1.
      - rewrite join_cons. destruct (lex (fst x) (fst y)) eqn:C.
        + destruct (f e (snd x) (snd y)) as [[e1 v] [[|]|]].
          * destruct (join a b e1) as [[o1 e2] q1] eqn:Q. cbn. intros [= <- <- <-]. destruct (IHa _ _ _ _ _ Q) as [H1 H2]. split.
            -- intros k [<-|Hk]; [left; now left|]. destruct (H1 k Hk); simpl; auto.
            -- intros k w Hq. destruct (H2 k w Hq) as (H3 & k' & H4 & H5). split; [now right|]. exists k'. split; [now right|auto].
          * intros Q. destruct (IHa _ _ _ _ _ Q) as [H1 H2]. split.
            -- intros k Hk. destruct (H1 k Hk); simpl; auto.
            -- intros k w Hq. destruct (H2 k w Hq) as (H3 & k' & H4 & H5). split; [now right|]. exists k'. split; [now right|auto].
          * intros [= <- <- <-]. split; [intros ? []|]. intros k w [= <- <-]. split; [now left|]. exists (fst y). split; [now left|auto].
        + destruct (join a (y :: b) e) as [[o1 e2] q1] eqn:Q. cbn. intros [= <- <- <-]. destruct (IHa _ _ _ _ _ Q) as [H1 H2]. split.
          * intros k Hk. rewrite map_app in Hk. apply in_app_or in Hk as [Hk|Hk].
            -- unfold left_only in Hk. destruct ka; [|destruct Hk]. destruct Hk as [<-|[]]. left. now left.
            -- destruct (H1 k Hk); simpl in *; auto.
          * intros k w Hq. destruct (H2 k w Hq) as (H3 & k' & H4 & H5). split; [now right|]. exists k'. split; auto.
        + destruct (join (x :: a) b e) as [[o1 e2] q1] eqn:Q. cbn [emit]. intros [= <- <- <-]. destruct (IHb _ _ _ _ Q) as [H1 H2]. split.
          * intros k Hk. rewrite map_app in Hk. apply in_app_or in Hk as [Hk|Hk].
            -- unfold right_only in Hk. destruct (hb (snd y)); [|destruct Hk]. destruct Hk as [<-|[]]. right. now left.
            -- destruct (H1 k Hk); simpl in *; auto.
          * intros k w Hq. destruct (H2 k w Hq) as (H3 & k' & H4 & H5). split; auto. exists k'. split; [now right|auto].
    Qed.
  End Join.
End EffFacts.

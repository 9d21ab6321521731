(** The in-place operations of RadixUserModel.v: what holds of every run. *)
From Verif Require Export RadixUserFacts.

Section With.
  Context {E K : Type} (u : ucode E K) (strat : nat -> nat -> bool) (Bl : Prop) (led : E -> nat).
  Notation usercall := (usercall Bl led).
  Notation gives := (gives Bl led).
  Context (OE : usercall (u_eq u) nothing) (OC : usercall (u_cmp u) nothing) (OL : usercall (u_lt u) nothing).
  Notation Cons := (consistent u).
  Notation meet := (meet u).

  (** what an in-place operation with the given fuel gives *)
  Definition ip_ok {V X} (w : V -> nat) (fuel : nat) (self : rtree K V) (that : rtree K X) (e : E)
    (r : done (rtree K V * E)) : Prop :=
    match r with
    | Done (t, e') =>
        tw w t + led e <= tw w self + led e' /\
        (Cons -> shaped self = true -> shaped that = true ->
         shaped t = true /\ (meet self that -> t_is_empty t = true \/ has_head t = true))
    | Unwound (t, e') =>
        tw w t + led e <= tw w self + led e' /\
        (Cons -> shaped self = true -> shaped that = true -> shaped t = true) /\
        (shaped self = true -> shaped that = true -> Bl)
    | DoneNoFuel => fuel <= t_size self + t_size that
    end.
  (** the same for lists of children *)
  Definition ch_ok {V X} (w : V -> nat) (fuel : nat) (a : list (rtree K V)) (b : list (rtree K X)) (e : E)
    (r : done (list (rtree K V) * E)) : Prop :=
    match r with
    | Done (c, e') =>
        lw w c + led e <= lw w a + led e' /\
        (Cons -> forallb ns a = true -> forallb ns b = true -> forallb ns c = true)
    | Unwound (c, e') =>
        lw w c + led e <= lw w a + led e' /\
        (Cons -> forallb ns a = true -> forallb ns b = true -> forallb ns c = true) /\
        (forallb ns a = true -> forallb ns b = true -> Bl)
    | DoneNoFuel => exists x y, In x a /\ In y b /\ fuel <= t_size x + t_size y
    end.

  Section Children.
    Context {V X : Type} (w : V -> nat) (fuel : nat) (rec : rtree K V -> rtree K X -> E -> done (rtree K V * E)).
    Context (REC : forall a b e, ip_ok w fuel a b e (rec a b e)).
    Context (tb : bool) (conv : rtree K X -> E -> given_back E (rtree K V)).
    Context (CV : tb = true -> forall t e, gives e (conv t e) (tw w) (fun t' => ns t' = true) (ns t = true)).
    Notation ist := (iprstate (rtree K V) (rtree K X) * E)%type.

    Definition held (s : ist) : nat := lw w (bd_tgt (ipr_a (fst s))) + lw w (bd_src (ipr_a (fst s))).
    Definition gin (s : ist) : Prop := forallb ns (bd_src (ipr_a (fst s))) = true /\ forallb ns (ipr_b (fst s)) = true.
    Definition gout (s : ist) : Prop := forallb ns (bd_tgt (ipr_a (fst s))) = true.
    Definition ins (s s' : ist) : Prop :=
      (forall x, In x (bd_src (ipr_a (fst s'))) -> In x (bd_src (ipr_a (fst s)))) /\
      (forall x, In x (ipr_b (fst s')) -> In x (ipr_b (fst s))).
    Definition WR (s s' : ist) : Prop :=
      held s' + led (snd s) <= held s + led (snd s') /\ ins s s' /\
      (Cons -> gin s -> gout s -> gout s').
    Definition WP (s s' : ist) : Prop :=
      lw w (bd_tgt (ipr_a (fst s'))) + led (snd s) <= held s + led (snd s') /\ (gin s -> Bl) /\
      (Cons -> gin s -> gout s -> gout s').
    Definition WN (s : ist) : Prop := exists x y, In x (bd_src (ipr_a (fst s))) /\ In y (ipr_b (fst s)) /\ fuel <= t_size x + t_size y.

    Lemma ins_gin s s' : ins s s' -> gin s -> gin s'.
    Proof using.
      intros (H1 & H2) (G1 & G2). unfold gin in *. rewrite forallb_forall in G1, G2 |- *. rewrite forallb_forall.
      split; intros x Hx; [apply G1, H1, Hx|apply G2, H2, Hx].
    Qed.
    Lemma in_skip {T} n (l : list T) x : In x (skipn n l) -> In x l.
    Proof using. intros H. rewrite <- (firstn_skipn n l). apply in_or_app. now right. Qed.

    Lemma uextend_ok : tb = true -> forall n t src d b e,
      n <= length b ->
      gstepok (uop_with rec true tb conv) WR WP WN (MkIpr (MkB t src d) b, e) 0 n (uextend conv n (MkB t src d) b e).
    Proof using strat CV.
      intros T. induction n as [|n IH]; intros t src d b e L; cbn [uextend].
      { cbn [gstepok]. split; [|now split]. unfold WR, ins. split; [lia|]. split; [now split|now intros]. }
      destruct b as [|y b]; [cbn in L; lia|].
      pose proof (CV T y e) as C. destruct (conv y e) as [[e1 [x|]]|]; cbn [RadixUserFacts.gives] in C.
      - destruct C as (C1 & C2). unfold bd_push. cbn [bd_tgt bd_src bd_drop].
        specialize (IH (t ++ [x]) src d b e1 ltac:(cbn in L; lia)).
        destruct (uextend conv n (MkB (t ++ [x]) src d) b e1) as [s'|s'|s'|]; cbn [gstepok] in *.
        + destruct IH as ((I1 & I2 & I3) & I4 & I5). split; [|now split].
          unfold WR, held, ins, gin, gout in *. cbn [fst snd ipr_a ipr_b bd_tgt bd_src] in *. rewrite lw_app, lw_one in I1.
          split; [lia|].
          split; [split; [apply I2|intros z Hz; right; now apply I2]|].
          intros Co (G1 & G2) G3. cbn [forallb] in G2. apply andb_prop in G2. apply I3; [assumption|tauto|].
          rewrite forallb_app, G3. cbn [forallb]. now rewrite C2.
        + destruct IH as (I1 & I2 & I3).
          unfold WR, held, ins, gin, gout in *. cbn [fst snd ipr_a ipr_b bd_tgt bd_src] in *. rewrite lw_app, lw_one in I1.
          split; [lia|].
          split; [split; [apply I2|intros z Hz; right; now apply I2]|].
          intros Co (G1 & G2) G3. cbn [forallb] in G2. apply andb_prop in G2. apply I3; [assumption|tauto|].
          rewrite forallb_app, G3. cbn [forallb]. now rewrite C2.
        + destruct IH as (I1 & I2 & I3).
          unfold WP, held, ins, gin, gout in *. cbn [fst snd ipr_a ipr_b bd_tgt bd_src] in *. rewrite lw_app, lw_one in I1.
          split; [lia|].
          split; [intros (G1 & G2); cbn [forallb] in G2; apply andb_prop in G2; apply I2; tauto|].
          intros Co (G1 & G2) G3. cbn [forallb] in G2. apply andb_prop in G2. apply I3; [assumption|tauto|].
          rewrite forallb_app, G3. cbn [forallb]. now rewrite C2.
        + destruct IH as (x0 & y0 & I1 & I2 & I3). exists x0, y0. cbn [fst ipr_a ipr_b bd_src] in *.
          split; [assumption|]. split; [now right|assumption].
      - destruct C as (C1 & C2). cbn [gstepok]. unfold WP, held, gin, gout. cbn [fst snd ipr_a ipr_b bd_tgt bd_src].
        split; [lia|]. split; [|tauto]. intros (_ & G). cbn [forallb] in G. apply C2. now apply andb_prop in G.
      - destruct C.
    Qed.

    Lemma uwith_steps ta : gsteps (uhead_cmp u) (uop_with rec ta tb conv) WR WP WN.
    Proof using strat OC REC CV.
      constructor.
      - intros s. unfold WR, ins. split; [lia|]. split; [now split|now intros].
      - intros s1 s2 s3 (H1 & H2 & H3) (G1 & G2 & G3). unfold WR. split; [lia|]. split.
        + split; intros x Hx; [apply H2, G2, Hx|apply H2, G2, Hx].
        + intros Co I O. apply G3; [assumption|now apply (ins_gin s1)|now apply H3].
      - intros s1 s2 s3 (H1 & H2 & H3) (G1 & G2 & G3). unfold WP. split; [lia|]. split.
        + intros I. apply G2. now apply (ins_gin s1).
        + intros Co I O. apply G3; [assumption|now apply (ins_gin s1)|now apply H3].
      - intros s1 s2 (H1 & H2 & H3) (x & y & G1 & G2 & G3). exists x, y.
        split; [now apply H2|]. split; [now apply H2|assumption].
      - intros [[[t src d] b] e] n L. cbn [mo_a mo_from_a uop_with] in *. unfold uadv_a. cbn [gstepok].
        split; [|split; [cbn [uop_with mo_a fst ipr_a bd_src]; unfold bd_consume; now destruct ta|reflexivity]].
        unfold WR, held, ins, gin, gout, bd_consume. cbn [fst snd ipr_a ipr_b bd_tgt bd_src].
        pose proof (lw_firstn_skipn w n src) as S1.
        destruct ta; cbn [bd_tgt bd_src]; rewrite ?lw_app.
        + split; [lia|]. split; [split; [apply in_skip|trivial]|]. intros Co (G1 & _) G3.
          rewrite forallb_app, G3. now rewrite (forallb_firstn _ _ _ G1).
        + split; [lia|]. split; [split; [apply in_skip|trivial]|]. tauto.
      - intros [[[t src d] b] e] n L. cbn [mo_b mo_from_b uop_with] in *. unfold uadv_b. cbn [fst snd ipr_a ipr_b] in *.
        destruct (Bool.bool_dec tb true) as [Tb|Tb].
        + pose proof (uextend_ok Tb n t src d b e L) as H. rewrite Tb at 2. destruct (uextend conv n _ b e); exact H.
        + apply Bool.not_true_is_false in Tb. rewrite Tb at 2. cbn [gstepok uop_with mo_a mo_b]. split; [|now split]. unfold WR, held, ins, gin, gout.
          cbn [fst snd ipr_a ipr_b bd_tgt bd_src]. split; [lia|]. split; [|tauto]. split; [trivial|apply in_skip].
      - intros [[[t src d] b] e] x a y b' QA QB (s1 & s2 & Qc). cbn [uop_with mo_a mo_b mo_coll fst ipr_a ipr_b bd_src] in *. subst src b.
        assert (M : meet x y).
        { unfold uhead_cmp in Qc. destruct (t_prefix x) as [|kx px] eqn:Px; [discriminate|].
          destruct (t_prefix y) as [|ky py] eqn:Py; [discriminate|].
          destruct (u_cmp u (snd s1) (kx, ky)) as [e' r] eqn:Q. exists kx, px, ky, py. split; [assumption|]. split; [assumption|].
          exists (snd s1), e'. rewrite Q. destruct r as [q|]; [|discriminate]. now injection Qc as [= _ ->]. }
        unfold ucoll_with. cbn [ipr_a ipr_b bd_src bd_tgt bd_drop].
        pose proof (REC x y e) as H. destruct (rec x y e) as [[x' e']|[x' e']|]; cbn [ip_ok] in H.
        + destruct H as (H1 & H2). unfold uadv_a, uadv_b. cbn [obind fst snd ipr_a ipr_b gstepok].
          split.
          2:{ cbn [uop_with mo_a mo_b fst ipr_a ipr_b skipn]. unfold bd_consume. cbn [bd_src]. now destruct (negb _). }
          unfold WR, held, ins, gin, gout, bd_consume. cbn [fst snd ipr_a ipr_b bd_src bd_tgt].
          destruct (t_is_empty x') eqn:Em; cbn [negb bd_tgt bd_src skipn firstn]; rewrite ?(lw_app w), ?(lw_cons w x).
          * split; [lia|]. split; [split; intros z Hz; now right|]. tauto.
          * rewrite lw_one. split; [lia|]. split; [split; intros z Hz; now right|].
            intros Co (G1 & G2) G3. cbn [forallb] in G1, G2. apply andb_prop in G1, G2. unfold ns in G1 at 1, G2 at 1.
            destruct G1 as (G1 & _), G2 as (G2 & _). apply andb_prop in G1, G2.
            destruct (H2 Co (proj2 G1) (proj2 G2)) as (H3 & H4). rewrite forallb_app, G3. cbn [forallb]. unfold ns. rewrite H3.
            destruct (H4 M) as [H5|H5]; [congruence|]. now rewrite H5.
        + destruct H as (H1 & H2 & H3). cbn [gstepok]. unfold WP, held, gin, gout. cbn [fst snd ipr_a ipr_b bd_src bd_tgt].
          rewrite lw_cons. split; [lia|]. split; [|tauto]. intros (G1 & G2). cbn [forallb] in G1, G2. apply andb_prop in G1, G2.
          unfold ns in G1 at 1, G2 at 1. destruct G1 as (G1 & _), G2 as (G2 & _). apply andb_prop in G1, G2. now apply H3.
        + cbn [gstepok]. exists x, y. cbn [fst ipr_a ipr_b bd_src]. split; [now left|]. split; [now left|assumption].
      - intros [[[t src d] b] e] x y s' q Ix Iy Q. cbn [uop_with mo_a mo_b fst ipr_a ipr_b bd_src] in *.
        unfold uhead_cmp in Q. destruct (t_prefix x) as [|kx px] eqn:Px.
        { injection Q as [= <- <-]. cbn [fst ipr_a ipr_b bd_src]. split; [reflexivity|]. split; [reflexivity|].
          unfold WP, held, gin, gout. cbn [fst snd ipr_a ipr_b bd_src bd_tgt]. split; [lia|]. split; [|tauto].
          intros (G & _). rewrite forallb_forall in G. specialize (G x Ix). unfold ns, has_head in G. rewrite Px in G. discriminate. }
        destruct (t_prefix y) as [|ky py] eqn:Py.
        { injection Q as [= <- <-]. cbn [fst ipr_a ipr_b bd_src]. split; [reflexivity|]. split; [reflexivity|].
          unfold WP, held, gin, gout. cbn [fst snd ipr_a ipr_b bd_src bd_tgt]. split; [lia|]. split; [|tauto].
          intros (_ & G). rewrite forallb_forall in G. specialize (G y Iy). unfold ns, has_head in G. rewrite Py in G. discriminate. }
        cbn [fst snd] in Q. pose proof (OC e (kx, ky)) as C. destruct (u_cmp u e (kx, ky)) as [e' r]. specialize (C _ _ eq_refl).
        injection Q as [= <- <-]. cbn [fst ipr_a ipr_b bd_src]. split; [reflexivity|]. split; [reflexivity|].
        destruct r as [r|]; cbn iota beta in C; unfold nothing in C.
        + unfold WR, held, ins, gin, gout. cbn [fst snd ipr_a ipr_b bd_src bd_tgt]. split; [lia|]. split; [now split|tauto].
        + unfold WP, held, gin, gout. cbn [fst snd ipr_a ipr_b bd_src bd_tgt]. split; [lia|]. split; tauto.
    Qed.

    Lemma uchildren_with_ok ta a b e : ch_ok w fuel a b e (uchildren_with u strat rec ta tb conv a b e).
    Proof using strat OC REC CV.
      unfold uchildren_with.
      pose proof (gmerge_ok _ _ _ _ _ (uwith_steps ta) strat (ipr_new a b, e)) as H.
      destruct (gmerge _ _ _ _) as [s|s|s|]; cbn [gstepok to_done ch_ok] in *.
      - destruct H as ((H1 & _ & H3) & HA & HB). unfold held, gin, gout in *.
        cbn [uop_with mo_a mo_b fst snd ipr_new ipr_a ipr_b bd_new bd_tgt bd_src ] in *.
        rewrite (lw_nil w) in H1. split; [lia|]. intros Co G1 G2. now apply H3.
      - destruct H as (H1 & _ & H3). unfold held, gin, gout in *.
        cbn [uop_with mo_a mo_b fst snd ipr_new ipr_a ipr_b bd_new bd_tgt bd_src ] in *.
        rewrite (lw_nil w) in H1. split; [lia|]. intros Co G1 G2. now apply H3.
      - destruct H as (H1 & H2 & H3). unfold held, gin, gout in *.
        cbn [uop_with mo_a mo_b fst snd ipr_new ipr_a ipr_b bd_new bd_tgt bd_src ] in *.
        rewrite (lw_nil w) in H1. split; [lia|]. split; [intros Co G1 G2; now apply H3|intros G1 G2; now apply H2].
      - exact H.
    Qed.
  End Children.

  (** ** One node *)
  (** a closure [Fn(&mut V, &X) -> bool]: what it leaves behind the [&mut] was there or is made by it *)
  Definition mutcall {V X} (f : mclos E V X) (w : V -> nat) : Prop :=
    forall e v x e' v' r, f e v x = (e', v', r) -> led e + w v' <= w v + led e' /\ (r = Throw -> Bl).
  Definition val_ok {V} (w : V -> nat) (v : option V) (e : E) (r : option V * E * bool) : Prop :=
    ow w (fst (fst r)) + led e <= ow w v + led (snd (fst r)) /\ (snd r = false -> Bl).

  Lemma finish_ok {V X} (w : V -> nat) fuel (self : rtree K V) (that : rtree K X) e p v c (b : list (rtree K X)) e1 r :
    ch_ok w fuel c b e1 r ->
    ow w v + lw w c + led e <= tw w self + led e1 ->
    (shaped self = true -> forallb ns c = true) -> (shaped that = true -> forallb ns b = true) ->
    (forall x y, In x c -> In y b -> t_size x + t_size y < t_size self + t_size that) ->
    (Cons -> meet self that -> p <> []) ->
    ip_ok w (S fuel) self that e (ufinish p v r).
  Proof using.
    intros H W S1 S2 SZ M. destruct r as [[c' e']|[c' e']|]; cbn [ufinish ch_ok ip_ok] in *.
    - destruct H as (H1 & H2). rewrite unsplit_w. cbn [tw]. fold (lw w c'). split; [lia|]. intros Co Q1 Q2. split.
      + apply unsplit_shaped. rewrite shaped_eq. cbn [t_children]. auto.
      + intros Me. apply unsplit_head. unfold has_head. cbn [t_prefix]. specialize (M Co Me). now destruct p.
    - destruct H as (H1 & H2 & H3). cbn [tw]. fold (lw w c'). split; [lia|]. split.
      + intros Co Q1 Q2. rewrite shaped_eq. cbn [t_children]. auto.
      + auto.
    - destruct H as (x & y & I1 & I2 & I3). specialize (SZ x y I1 I2). lia.
  Qed.
  Lemma value_ok {V X} (w : V -> nat) fuel (self : rtree K V) (that : rtree K X) e p v0 c e1 r k :
    val_ok w v0 e1 r ->
    ow w v0 + lw w c + led e <= tw w self + led e1 ->
    (shaped self = true -> forallb ns c = true) ->
    (forall v e2, ow w v + lw w c + led e <= tw w self + led e2 -> ip_ok w (S fuel) self that e (k v e2)) ->
    ip_ok w (S fuel) self that e (uvalue p c r k).
  Proof using.
    intros (H1 & H2) W S1 KK. destruct r as [[v e2] ok]. cbn [fst snd uvalue] in *. destruct ok; [apply KK; lia|].
    cbn [ip_ok tw]. fold (lw w c). split; [lia|]. split; [intros _ Q _; rewrite shaped_eq; now apply S1|auto].
  Qed.
  Lemma lift_ok {V X Y} (w : V -> nat) fuel (self rest : rtree K V) (that : rtree K X) e (r : given_back E Y) wy P (B : Prop) e1 k :
    gives e1 r wy P B ->
    tw w rest + led e <= tw w self + led e1 -> (shaped self = true -> shaped rest = true) ->
    (shaped self = true -> shaped that = true -> B) ->
    (forall y e2, led e1 + wy y <= led e2 -> P y -> ip_ok w (S fuel) self that e (k y e2)) ->
    ip_ok w (S fuel) self that e (ulift rest r k).
  Proof using.
    intros H W S1 HB KK. destruct r as [[e2 [y|]]|]; cbn [ulift RadixUserFacts.gives] in *.
    - destruct H as (H1 & H2). now apply KK.
    - destruct H as (H1 & H2). cbn [ip_ok]. split; [lia|]. split; [auto|]. intros Q1 Q2. now apply H2, HB.
    - destruct H.
  Qed.
  Lemma done_ok {V X} (w : V -> nat) fuel (self : rtree K V) (that : rtree K X) e e1 t :
    tw w t + led e <= tw w self + led e1 -> (shaped self = true -> shaped t = true) ->
    (Cons -> meet self that -> has_head t = true) ->
    ip_ok w (S fuel) self that e (Done (t_unsplit t, e1)).
  Proof using.
    intros W S1 M. cbn [ip_ok]. rewrite unsplit_w. split; [lia|]. intros Co Q1 Q2. split; [now apply unsplit_shaped, S1|].
    intros Me. now apply unsplit_head, M.
  Qed.
  Lemma ucall_ok {V X} (w : V -> nat) (f : mclos E V X) (MF : mutcall f w) v x e : val_ok w (Some v) e (ucall f v x e).
  Proof using.
    unfold ucall, val_ok. pose proof (MF e v x) as H. destruct (f e v x) as [[e' v'] r]. specialize (H _ _ _ eq_refl).
    destruct H as (H1 & H2). destruct r as [[]|]; cbn [fst snd ow]; (split; [lia|]); try discriminate. intros _. now apply H2.
  Qed.
  Lemma sizes_children {V X} (self : rtree K V) (that : rtree K X) x y :
    In x (t_children self) -> In y (t_children that) -> t_size x + t_size y < t_size self + t_size that.
  Proof using. intros H1 H2. apply size_child in H1, H2. lia. Qed.
  Lemma size_same {V} q (self : rtree K V) : t_size (Node q (t_value self) (t_children self)) = t_size self.
  Proof using. now destruct self. Qed.
  Lemma tw_same {V} (w : V -> nat) q (self : rtree K V) : tw w (Node q (t_value self) (t_children self)) = tw w self.
  Proof using. now destruct self. Qed.
  Lemma shaped_same {V} q (v : option V) (self : rtree K V) : shaped (Node q v (t_children self)) = shaped self.
  Proof using. now destruct self. Qed.
  Lemma size_pos {V} (t : rtree K V) : 0 < t_size t.
  Proof using. destruct t. cbn. lia. Qed.

  (** the branches of every operation, on the length of the common prefix *)
  Lemma meet_pos {V X} (self : rtree K V) (that : rtree K X) n :
    (forall x p y q, t_prefix self = x :: p -> t_prefix that = y :: q -> alike u x y -> Cons -> 0 < n) ->
    Cons -> meet self that -> 0 < n.
  Proof using. intros H Co (x & p & y & q & H1 & H2 & H3). exact (H x p y q H1 H2 H3 Co). Qed.

  Section Five.
    Context {V X : Type} (w : V -> nat).
    (** the three ways in which children are merged *)
    Section Branch.
      Context (fuel : nat) (rec : rtree K V -> rtree K X -> E -> done (rtree K V * E)).
      Context (REC : forall a b e, ip_ok w fuel a b e (rec a b e)).
      Context (ta tb : bool) (conv : rtree K X -> E -> given_back E (rtree K V)).
      Context (CV : tb = true -> forall t e, gives e (conv t e) (tw w) (fun t' => ns t' = true) (ns t = true)).
      Notation merge_children := (uchildren_with u strat rec ta tb conv).
      Context (self : rtree K V) (that : rtree K X) (e : E).
      (** children with children *)
      Lemma both_ok n v e1 : ow w v + lw w (t_children self) + led e <= tw w self + led e1 ->
        n = length (t_prefix self) -> (Cons -> meet self that -> 0 < n) ->
        ip_ok w (S fuel) self that e (ufinish (t_prefix self) v (merge_children (t_children self) (t_children that) e1)).
      Proof using OC REC CV.
        intros W Hn M. eapply finish_ok; [apply uchildren_with_ok; assumption|exact W| | | |].
        - now rewrite shaped_eq.
        - now rewrite shaped_eq.
        - apply sizes_children.
        - intros Co Me Q. specialize (M Co Me). rewrite Q in Hn. cbn in Hn. lia.
      Qed.
      (** children with the shortened other tree *)
      Lemma longer_ok n v e1 (that' : rtree K X) : ow w v + lw w (t_children self) + led e <= tw w self + led e1 ->
        ns that' = true -> t_size that' = t_size that ->
        n = length (t_prefix self) -> (Cons -> meet self that -> 0 < n) ->
        ip_ok w (S fuel) self that e (ufinish (t_prefix self) v (merge_children (t_children self) [that'] e1)).
      Proof using OC REC CV.
        intros W N S1 Hn M. eapply finish_ok; [apply uchildren_with_ok; assumption|exact W| | | |].
        - now rewrite shaped_eq.
        - intros _. cbn [forallb]. now rewrite N.
        - intros x y Hx [<-|[]]. apply size_child in Hx. lia.
        - intros Co Me Q. specialize (M Co Me). rewrite Q in Hn. cbn in Hn. lia.
      Qed.
      (** the shortened tree with the children of the other *)
      Lemma shorter_ok n v e1 : ow w v + tw w self + led e <= tw w self + led e1 ->
        n < length (t_prefix self) -> (Cons -> meet self that -> 0 < n) ->
        ip_ok w (S fuel) self that e (ufinish (firstn n (t_prefix self)) v
          (merge_children [Node (skipn n (t_prefix self)) (t_value self) (t_children self)] (t_children that) e1)).
      Proof using OC REC CV.
        intros W Hn M. eapply finish_ok; [apply uchildren_with_ok; assumption| | | | |].
        - rewrite lw_one, tw_same. exact W.
        - intros Q. cbn [forallb]. unfold ns. rewrite (skipn_head _ _ _ _ Hn), shaped_same, Q. reflexivity.
        - now rewrite shaped_eq.
        - intros x y [<-|[]] Hy. rewrite size_same. apply size_child in Hy. lia.
        - intros Co Me Q. specialize (M Co Me). apply (f_equal (@length K)) in Q. rewrite firstn_length_le in Q by lia. cbn in Q. lia.
      Qed.
    End Branch.
    Lemma no_conv_cv (conv : rtree K X -> E -> given_back E (rtree K V)) :
      false = true -> forall t e, gives e (conv t e) (tw w) (fun t' => ns t' = true) (ns t = true).
    Proof using. discriminate. Qed.
    Lemma split_use fuel (self : rtree K V) (that : rtree K X) e e1 n k :
      n < length (t_prefix self) ->
      ip_ok w (S fuel) self that e (k (Node (firstn n (t_prefix self)) None [Node (skipn n (t_prefix self)) (t_value self) (t_children self)])) ->
      ip_ok w (S fuel) self that e (usplit self n e1 k).
    Proof using. intros L H. unfold usplit. rewrite (split_get _ _ L). exact H. Qed.
    Lemma self_val (self : rtree K V) e e1 : led e <= led e1 -> ow w (t_value self) + lw w (t_children self) + led e <= tw w self + led e1.
    Proof using. rewrite tw_eq. lia. Qed.
    Lemma none_val (self : rtree K V) e e1 : led e <= led e1 -> ow w None + lw w (t_children self) + led e <= tw w self + led e1.
    Proof using. rewrite tw_eq. cbn [ow]. lia. Qed.

    Section ILR.
      Context (wx : X -> nat) (cx : clos E X X) (CX : usercall cx wx).
      Section IL.
      Context (f : mclos E V X) (MF : mutcall f w).
      Lemma uupd_inner_ok v x e : val_ok w v e (uupd_inner f v x e).
      Proof using MF.
        destruct v as [v|], x as [x|]; cbn [uupd_inner]; try (unfold val_ok; cbn [fst snd ow]; split; [lia|discriminate]).
        now apply ucall_ok.
      Qed.
      Lemma uupd_left_ok v x e : val_ok w v e (uupd_left f v x e).
      Proof using MF.
        destruct v as [v|], x as [x|]; cbn [uupd_left]; try (unfold val_ok; cbn [fst snd ow]; split; [lia|discriminate]).
        now apply ucall_ok.
      Qed.
      Lemma uinner_with_ok : forall fuel self that e, ip_ok w fuel self that e (uinner_with u strat cx f fuel self that e).
      Proof using OE OC MF CX.
        induction fuel as [|fuel IH]; intros self that e; [cbn [uinner_with ip_ok]; lia|]. cbn [uinner_with].
        eapply lift_ok; [exact (ucommon_gives u Bl led OE _ _ e)|lia|auto|auto|].
        intros n e1 L1 (Ls & Lt & M). unfold nothing in L1. pose proof (meet_pos self that n M) as MP. clear M.
        destruct (Nat.eqb_spec n (length (t_prefix self))) as [Es|Es], (Nat.eqb_spec n (length (t_prefix that))) as [Et|Et];
          cbn [andb].
        - eapply value_ok; [apply uupd_inner_ok|apply self_val; lia|now rewrite shaped_eq|].
          intros v e2 W2. apply (both_ok fuel _ IH _ _ _ (no_conv_cv _)) with (n := n); assumption.
        - eapply lift_ok; [exact (umat_ns Bl led wx cx CX that n e1)| | | |].
          + cbn [tw]. fold (lw w (t_children self)). pose proof (none_val self e e1). lia.
          + intros Q. rewrite shaped_eq in *. exact Q.
          + intros _ Q. split; [lia|assumption].
          + intros that' e2 L2 (N2 & S2). apply (longer_ok fuel _ IH _ _ _ (no_conv_cv _)) with (n := n); try assumption.
            apply none_val. lia.
        - apply split_use; [lia|]. cbn [t_prefix t_value t_children].
          apply (shorter_ok fuel _ IH _ _ _ (no_conv_cv _)); [cbn [ow]; lia|lia|assumption].
        - apply done_ok.
          + cbn [tw ow map list_sum fold_right]. pose proof (none_val self e e1 ltac:(lia)). cbn [ow] in *. unfold list_sum. cbn [fold_right]. lia.
          + reflexivity.
          + intros Co Me. specialize (MP Co Me). unfold has_head. cbn [t_prefix]. destruct (t_prefix self); [cbn in Ls; lia|reflexivity].
      Qed.
      Lemma uleft_with_ok : forall fuel self that e, ip_ok w fuel self that e (uleft_with u strat cx f fuel self that e).
      Proof using OE OC MF CX.
        induction fuel as [|fuel IH]; intros self that e; [cbn [uleft_with ip_ok]; lia|]. cbn [uleft_with].
        eapply lift_ok; [exact (ucommon_gives u Bl led OE _ _ e)|lia|auto|auto|].
        intros n e1 L1 (Ls & Lt & M). unfold nothing in L1. pose proof (meet_pos self that n M) as MP. clear M.
        destruct (Nat.eqb_spec n (length (t_prefix self))) as [Es|Es], (Nat.eqb_spec n (length (t_prefix that))) as [Et|Et];
          cbn [andb].
        - eapply value_ok; [apply uupd_left_ok|apply self_val; lia|now rewrite shaped_eq|].
          intros v e2 W2. apply (both_ok fuel _ IH _ _ _ (no_conv_cv _)) with (n := n); assumption.
        - eapply lift_ok; [exact (umat_ns Bl led wx cx CX that n e1)|lia|auto| |].
          + intros _ Q. split; [lia|assumption].
          + intros that' e2 L2 (N2 & S2). apply (longer_ok fuel _ IH _ _ _ (no_conv_cv _)) with (n := n); try assumption.
            apply self_val. lia.
        - apply split_use; [lia|]. cbn [t_prefix t_value t_children].
          apply (shorter_ok fuel _ IH _ _ _ (no_conv_cv _)); [cbn [ow]; lia|lia|assumption].
        - apply done_ok; [lia|auto|].
          intros Co Me. specialize (MP Co Me). unfold has_head. destruct (t_prefix self); [cbn in Ls; lia|reflexivity].
      Qed.
      End IL.
      Section RR.
      Context (f : clos E X bool) (FF : usercall f nothing).
      Lemma uhit_gives x e : gives e (uhit f x e) nothing (fun _ => True) True.
      Proof using FF.
        destruct x as [x|]; cbn [uhit]; [now apply gives_call|now apply gives_ret].
      Qed.
      Lemma cleared_ok fuel (self : rtree K V) (that : rtree K X) e e1 n : led e <= led e1 -> n <= length (t_prefix self) ->
        (Cons -> meet self that -> 0 < n) ->
        ip_ok w (S fuel) self that e (Done (t_unsplit (Node (t_prefix self) None []), e1)).
      Proof using.
        intros L Ls MP. apply done_ok.
        + cbn [tw ow map list_sum fold_right]. pose proof (none_val self e e1 ltac:(lia)). cbn [ow] in *. unfold list_sum. cbn [fold_right]. lia.
        + reflexivity.
        + intros Co Me. specialize (MP Co Me). unfold has_head. cbn [t_prefix]. destruct (t_prefix self); [cbn in Ls; lia|reflexivity].
      Qed.
      Lemma kept_ok fuel (self : rtree K V) (that : rtree K X) e e1 n : led e <= led e1 -> n <= length (t_prefix self) ->
        (Cons -> meet self that -> 0 < n) ->
        ip_ok w (S fuel) self that e (Done (t_unsplit self, e1)).
      Proof using.
        intros L Ls MP. apply done_ok; [lia|auto|].
        intros Co Me. specialize (MP Co Me). unfold has_head. destruct (t_prefix self); [cbn in Ls; lia|reflexivity].
      Qed.
      Lemma uremove_with_ok : forall fuel self that e, ip_ok w fuel self that e (uremove_with u strat cx f fuel self that e).
      Proof using OE OC FF CX.
        induction fuel as [|fuel IH]; intros self that e; [cbn [uremove_with ip_ok]; lia|]. cbn [uremove_with].
        eapply lift_ok; [exact (ucommon_gives u Bl led OE _ _ e)|lia|auto|auto|].
        intros n e1 L1 (Ls & Lt & M). unfold nothing in L1. pose proof (meet_pos self that n M) as MP. clear M.
        destruct (Nat.eqb_spec n (length (t_prefix self))) as [Es|Es], (Nat.eqb_spec n (length (t_prefix that))) as [Et|Et];
          cbn [andb].
        - eapply lift_ok; [apply uhit_gives|lia|auto|auto|]. intros q e2 L2 _. unfold nothing in L2. destruct q.
          + apply cleared_ok with (n := n); [lia|assumption..].
          + apply (both_ok fuel _ IH _ _ _ (no_conv_cv _)) with (n := n); [apply self_val; lia|assumption..].
        - eapply lift_ok; [exact (umat_ns Bl led wx cx CX that n e1)|lia|auto| |].
          + intros _ Q. split; [lia|assumption].
          + intros that' e2 L2 (N2 & S2). apply (longer_ok fuel _ IH _ _ _ (no_conv_cv _)) with (n := n); try assumption.
            apply self_val. lia.
        - eapply lift_ok; [apply uhit_gives|lia|auto|auto|]. intros q e2 L2 _. unfold nothing in L2. destruct q.
          + apply cleared_ok with (n := n); [lia|assumption..].
          + apply split_use; [lia|]. cbn [t_prefix t_value t_children].
            apply (shorter_ok fuel _ IH _ _ _ (no_conv_cv _)); [cbn [ow]; lia|lia|assumption].
        - apply kept_ok with (n := n); [lia|assumption..].
      Qed.
      Lemma uretain_with_ok : forall fuel self that e, ip_ok w fuel self that e (uretain_with u strat cx f fuel self that e).
      Proof using OE OC FF CX.
        induction fuel as [|fuel IH]; intros self that e; [cbn [uretain_with ip_ok]; lia|]. cbn [uretain_with].
        eapply lift_ok; [exact (ucommon_gives u Bl led OE _ _ e)|lia|auto|auto|].
        intros n e1 L1 (Ls & Lt & M). unfold nothing in L1. pose proof (meet_pos self that n M) as MP. clear M.
        destruct (Nat.eqb_spec n (length (t_prefix self))) as [Es|Es], (Nat.eqb_spec n (length (t_prefix that))) as [Et|Et];
          cbn [andb].
        - eapply lift_ok; [apply uhit_gives|lia|auto|auto|]. intros q e2 L2 _. unfold nothing in L2. destruct q.
          + apply kept_ok with (n := n); [lia|assumption..].
          + apply (both_ok fuel _ IH _ _ _ (no_conv_cv _)) with (n := n); [apply none_val; lia|assumption..].
        - eapply lift_ok; [exact (umat_ns Bl led wx cx CX that n e1)| | | |].
          + cbn [tw]. fold (lw w (t_children self)). pose proof (none_val self e e1). lia.
          + intros Q. rewrite shaped_eq in *. exact Q.
          + intros _ Q. split; [lia|assumption].
          + intros that' e2 L2 (N2 & S2). apply (longer_ok fuel _ IH _ _ _ (no_conv_cv _)) with (n := n); try assumption.
            apply none_val. lia.
        - eapply lift_ok; [apply uhit_gives|lia|auto|auto|]. intros q e2 L2 _. unfold nothing in L2. destruct q.
          + apply kept_ok with (n := n); [lia|assumption..].
          + apply split_use; [lia|]. cbn [t_prefix t_value t_children].
            apply (shorter_ok fuel _ IH _ _ _ (no_conv_cv _)); [cbn [ow]; lia|lia|assumption].
        - apply cleared_ok with (n := n); [lia|assumption..].
      Qed.
      End RR.
    End ILR.
  End Five.

  Section Outer.
    Context {V : Type} (w : V -> nat) (cl : clos E V V) (CL : usercall cl w) (f : mclos E V V) (MF : mutcall f w).
    Lemma uupd_outer_ok v x e : val_ok w v e (uupd_outer cl f v x e).
    Proof using MF CL.
      destruct x as [x|]; cbn [uupd_outer]; [|unfold val_ok; cbn [fst snd]; split; [lia|discriminate]].
      destruct v as [v|]; [now apply ucall_ok|].
      unfold val_ok. pose proof (CL e x) as C. destruct (cl e x) as [e' [x'|]]; specialize (C _ _ eq_refl); cbn iota beta in C;
        cbn [fst snd ow]; [split; [lia|discriminate]|split; [lia|tauto]].
    Qed.
    Lemma mat_cv (t : rtree K V) e : gives e (umat cl t 0 e) (tw w) (fun t' => ns t' = true) (ns t = true).
    Proof using CL.
      eapply gives_impl; [exact (umat_ns Bl led w cl CL t 0 e)| |].
      - intros t' (H1 & _). split; [lia|assumption].
      - unfold ns, has_head. destruct (t_prefix t); [discriminate|]. intros Q. apply andb_prop in Q. split; [cbn; lia|tauto].
    Qed.
    Lemma uouter_with_ok : forall fuel self that e, ip_ok w fuel self that e (uouter_with u strat cl f fuel self that e).
    Proof using OE OC OL MF CL.
      induction fuel as [|fuel IH]; intros self that e; [cbn [uouter_with ip_ok]; lia|]. cbn [uouter_with].
      eapply lift_ok; [exact (ucommon_gives u Bl led OE _ _ e)|lia|auto|auto|].
      intros n e1 L1 (Ls & Lt & M). unfold nothing in L1. pose proof (meet_pos self that n M) as MP. clear M.
      destruct (Nat.eqb_spec n (length (t_prefix self))) as [Es|Es], (Nat.eqb_spec n (length (t_prefix that))) as [Et|Et];
        cbn [andb].
      - eapply value_ok; [apply uupd_outer_ok|apply self_val; lia|now rewrite shaped_eq|].
        intros v e2 W2. apply (both_ok w fuel _ IH _ _ _ (fun _ => mat_cv)) with (n := n); assumption.
      - eapply lift_ok; [exact (umat_ns Bl led w cl CL that n e1)|lia|auto| |].
        + intros _ Q. split; [lia|assumption].
        + intros that' e2 L2 (N2 & S2). apply (longer_ok w fuel _ IH _ _ _ (fun _ => mat_cv)) with (n := n); try assumption.
          apply self_val. lia.
      - apply split_use; [lia|]. cbn [t_prefix t_value t_children].
        eapply value_ok; [apply uupd_outer_ok| | |].
        + cbn [ow]. rewrite lw_one, tw_same. lia.
        + intros Q. cbn [forallb]. unfold ns. rewrite skipn_head by lia. now rewrite shaped_same, Q.
        + rewrite lw_one, tw_same. intros v e2 W2.
          apply (shorter_ok w fuel _ IH _ _ _ (fun _ => mat_cv)); [lia|lia|assumption].
      - apply split_use; [lia|]. cbn [t_prefix t_value t_children].
        set (sub := Node (skipn n (t_prefix self)) (t_value self) (t_children self)).
        assert (Hs : tw w sub = tw w self) by apply tw_same.
        assert (Hh : has_head sub = true) by (apply skipn_head; lia).
        assert (Hp : shaped sub = shaped self) by apply shaped_same.
        eapply lift_ok; [exact (umat_ns Bl led w cl CL that n e1)| | | |].
        + cbn [tw ow map]. fold (tw w sub). rewrite Hs. unfold list_sum. cbn [fold_right]. lia.
        + intros Q. rewrite shaped_eq. cbn [t_children forallb]. unfold ns. now rewrite Hh, Hp, Q.
        + intros _ Q. split; [lia|assumption].
        + intros that' e2 L2 (N2 & S2).
          eapply lift_ok; [exact (usort2_gives u Bl led OL w sub that' e2)| | | |].
          * cbn [tw ow map]. fold (tw w sub). rewrite Hs. unfold list_sum. cbn [fold_right]. lia.
          * intros Q. rewrite shaped_eq. cbn [t_children forallb]. unfold ns at 1. now rewrite Hh, Hp, Q, N2.
          * intros _ _. split; [assumption|]. unfold ns in N2. now apply andb_prop in N2.
          * intros c e3 L3 (C1 & C2). unfold nothing in L3. apply done_ok.
            -- cbn [tw ow]. fold (lw w c). lia.
            -- intros Q. rewrite shaped_eq. cbn [t_children]. rewrite C2, N2. unfold ns. now rewrite Hh, Hp, Q.
            -- intros Co Me. apply firstn_head; [now apply MP|lia].
    Qed.
  End Outer.
End With.

(** The borrowing operations of RadixUserModel.v: what holds of every run. *)
From Verif Require Export RadixUserWith.

Section Pure.
  Context {E K : Type} (u : ucode E K) (strat : nat -> nat -> bool) (Bl : Prop) (led : E -> nat).
  Notation usercall := (usercall Bl led).
  Notation gives := (gives Bl led).
  Context (OE : usercall (u_eq u) nothing) (OC : usercall (u_cmp u) nothing) (OL : usercall (u_lt u) nothing).
  Notation Cons := (consistent u).
  Notation meet := (meet u).

  (** as [gives], but the fuel may be too small *)
  Definition yields {Y} (e : E) (r : given_back E Y) (w : Y -> nat) (P : Y -> Prop) (B N : Prop) : Prop :=
    match r with
    | Some (e', Ret y) => led e + w y <= led e' /\ P y
    | Some (e', Throw) => led e <= led e' /\ (B -> Bl)
    | None => N
    end.
  Lemma yields_then {Y Z} e e0 (r : given_back E Y) w P (B N : Prop) (k : Y -> E -> given_back E Z) w' P' (B' N' : Prop) :
    yields e0 r w P B N -> led e <= led e0 -> (B' -> B) -> (N -> N') ->
    (forall y e', led e0 + w y <= led e' -> P y -> yields e (k y e') w' P' B' N') ->
    yields e (then_ r k) w' P' B' N'.
  Proof using.
    unfold yields, then_. destruct r as [[e' [y|]]|]; [|intros (H1 & H2) L HB _ _; split; [lia|tauto]|tauto].
    intros (H1 & H2) L _ _ K1. exact (K1 y e' H1 H2).
  Qed.
  Lemma gives_yields {Y} e (r : given_back E Y) w P B N : gives e r w P B -> yields e r w P B N.
  Proof using. unfold RadixUserFacts.gives, yields. now destruct r as [[e' [y|]]|]. Qed.
  Lemma yields_ret {Y} e e' (y : Y) (w : Y -> nat) (P : Y -> Prop) B N : led e + w y <= led e' -> P y -> yields e (Some (e', Ret y)) w P B N.
  Proof using. intros H1 H2. now split. Qed.
  Lemma yields_impl {Y} e (r : given_back E Y) (w w' : Y -> nat) (P P' : Y -> Prop) (B B' N N' : Prop) :
    yields e r w P B N -> (forall y, P y -> w' y <= w y /\ P' y) -> (B' -> B) -> (N -> N') -> yields e r w' P' B' N'.
  Proof using.
    unfold yields. destruct r as [[e' [y|]]|]; intros H I J; try tauto.
    destruct H as (H1 & H2). destruct (I y H2). split; [lia|assumption].
  Qed.

  (** a combination that builds a tree *)
  Definition pu_ok {V X} (w : V -> nat) (fuel : nat) (a : rtree K V) (b : rtree K X) (e : E) (r : given_back E (rtree K V)) : Prop :=
    yields e r (tw w)
      (fun t => Cons -> shaped a = true -> shaped b = true ->
                shaped t = true /\ (meet a b -> t_is_empty t = true \/ has_head t = true))
      (shaped a = true /\ shaped b = true) (fuel <= t_size a + t_size b).

  Section Children.
    Context {V X : Type} (w : V -> nat) (fuel : nat) (rec : rtree K V -> rtree K X -> E -> given_back E (rtree K V)).
    Context (REC : forall a b e, pu_ok w fuel a b e (rec a b e)).
    Context (ta tb : bool) (ca : rtree K V -> E -> given_back E (rtree K V)) (cb : rtree K X -> E -> given_back E (rtree K V)).
    Context (CA : ta = true -> forall t e, gives e (ca t e) (tw w) (fun t' => ns t' = true) (ns t = true)).
    Context (CB : tb = true -> forall t e, gives e (cb t e) (tw w) (fun t' => ns t' = true) (ns t = true)).
    Notation vst := (vstate (rtree K V) (rtree K X) (rtree K V) * E)%type.
    Definition pin (s : vst) : Prop := forallb ns (vs_a (fst s)) = true /\ forallb ns (vs_b (fst s)) = true.
    Definition pout (s : vst) : Prop := forallb ns (vs_r (fst s)) = true.
    Definition pins (s s' : vst) : Prop :=
      (forall x, In x (vs_a (fst s')) -> In x (vs_a (fst s))) /\ (forall x, In x (vs_b (fst s')) -> In x (vs_b (fst s))).
    Definition PR (s s' : vst) : Prop :=
      lw w (vs_r (fst s')) + led (snd s) <= lw w (vs_r (fst s)) + led (snd s') /\ led (snd s) <= led (snd s') /\
      pins s s' /\ (Cons -> pin s -> pout s -> pout s').
    Definition PP (s s' : vst) : Prop := led (snd s) <= led (snd s') /\ (pin s -> Bl).
    Definition PN (s : vst) : Prop := exists x y, In x (vs_a (fst s)) /\ In y (vs_b (fst s)) /\ fuel <= t_size x + t_size y.
    Lemma pins_pin s s' : pins s s' -> pin s -> pin s'.
    Proof using.
      intros (H1 & H2) (G1 & G2). unfold pin in *. rewrite forallb_forall in G1, G2 |- *. rewrite forallb_forall.
      split; intros x Hx; [apply G1, H1, Hx|apply G2, H2, Hx].
    Qed.
    Lemma upush_ok {Y} (conv : rtree K Y -> E -> given_back E (rtree K V)) :
      (forall t e, gives e (conv t e) (tw w) (fun t' => ns t' = true) (ns t = true)) ->
      forall l (a : list (rtree K V)) (b : list (rtree K X)) r e,
      match upush conv l a b r e with
      | Cont (m, e') => vs_a m = a /\ vs_b m = b /\ lw w (vs_r m) + led e <= lw w r + led e' /\ led e <= led e' /\
                                     (forallb ns r = true -> forallb ns (vs_r m) = true)
      | Panic (_, e') => led e <= led e' /\ (forallb ns l = true -> Bl)
      | _ => False
      end.
    Proof using strat fuel.
      intros CV. induction l as [|y l IH]; intros a b r e; cbn [upush]; [repeat split; auto|].
      pose proof (CV y e) as C. destruct (conv y e) as [[e1 [x|]]|]; cbn [RadixUserFacts.gives] in C.
      - destruct C as (C1 & C2). specialize (IH a b (r ++ [x]) e1).
        destruct (upush conv l a b (r ++ [x]) e1) as [[m e']|s|[m e']|]; try exact IH.
        + destruct IH as (H0 & H1 & H2 & H4 & H3). rewrite lw_app, lw_one in H2.
          split; [assumption|]. split; [assumption|]. split; [lia|]. split; [lia|].
          intros Q. apply H3. rewrite forallb_app, Q. cbn [forallb]. now rewrite C2.
        + destruct IH as (H & H0). split; [lia|]. cbn [forallb]. intros Q. apply andb_prop in Q. tauto.
      - destruct C as (C1 & C2). split; [lia|]. cbn [forallb]. intros Q. apply andb_prop in Q. tauto.
      - destruct C.
    Qed.
    Lemma take_front_ok {T} (l : list T) n : n <= length l -> si_take_front l n = Some (firstn n l, skipn n l).
    Proof using. intros H. unfold si_take_front. now apply Nat.leb_le in H as ->. Qed.

    Lemma upure_steps : gsteps (uhead_cmp u) (uop_pure rec ta tb ca cb) PR PP PN.
    Proof using strat OC REC CA CB.
      constructor.
      - intros s. unfold PR, pins. split; [lia|]. split; [lia|]. split; [now split|now intros].
      - intros s1 s2 s3 (H1 & H0 & H2 & H3) (G1 & G0 & G2 & G3). unfold PR. split; [lia|]. split; [lia|]. split.
        + split; intros x Hx; [apply H2, G2, Hx|apply H2, G2, Hx].
        + intros Co I O. apply G3; [assumption|now apply (pins_pin s1)|now apply H3].
      - intros s1 s2 s3 (H1 & H0 & H2 & H3) (G1 & G2). unfold PP. split; [lia|intros I; apply G2; now apply (pins_pin s1)].
      - intros s1 s2 (H1 & H0 & H2 & H3) (x & y & G1 & G2 & G3). exists x, y.
        split; [now apply H2|]. split; [now apply H2|assumption].
      - intros [[a b r] e] n L. cbn [mo_a mo_from_a uop_pure fst snd vs_a] in *. unfold uvs_adv_a. cbn [fst snd vs_a vs_b vs_r].
        rewrite (take_front_ok _ _ L). destruct (Bool.bool_dec ta true) as [Ta|Ta].
        + rewrite Ta at 2. pose proof (upush_ok ca (CA Ta) (firstn n a) (skipn n a) b r e) as H.
          destruct (upush ca _ _ _ _ _) as [[m e']|s|[m e']|]; try (destruct H; fail).
          * destruct H as (H0 & H1 & H2 & H4 & H3). cbn [gstepok uop_pure mo_a mo_b fst]. split; [|split; assumption].
            unfold PR, pins, pout, pin. cbn [fst snd vs_a vs_b vs_r]. split; [lia|]. split; [lia|]. split; [|auto].
            rewrite H0, H1. split; [intros x; apply in_skip|trivial].
          * destruct H as (H0 & H1). cbn [gstepok]. unfold PP, pin. cbn [fst snd vs_a vs_b]. split; [lia|].
            intros (G & _). apply H1. now apply forallb_firstn.
        + apply Bool.not_true_is_false in Ta. rewrite Ta at 2. cbn [gstepok uop_pure mo_a mo_b fst vs_a vs_b]. split; [|now split].
          unfold PR, pins, pout, pin. cbn [fst snd vs_a vs_b vs_r]. split; [lia|]. split; [lia|]. split; [|auto].
          split; [intros x; apply in_skip|trivial].
      - intros [[a b r] e] n L. cbn [mo_b mo_from_b uop_pure fst snd vs_b] in *. unfold uvs_adv_b. cbn [fst snd vs_a vs_b vs_r].
        rewrite (take_front_ok _ _ L). destruct (Bool.bool_dec tb true) as [Tb|Tb].
        + rewrite Tb at 2. pose proof (upush_ok cb (CB Tb) (firstn n b) a (skipn n b) r e) as H.
          destruct (upush cb _ _ _ _ _) as [[m e']|s|[m e']|]; try (destruct H; fail).
          * destruct H as (H0 & H1 & H2 & H4 & H3). cbn [gstepok uop_pure mo_a mo_b fst]. split; [|split; assumption].
            unfold PR, pins, pout, pin. cbn [fst snd vs_a vs_b vs_r]. split; [lia|]. split; [lia|]. split; [|auto].
            rewrite H0, H1. split; [trivial|intros x; apply in_skip].
          * destruct H as (H0 & H1). cbn [gstepok]. unfold PP, pin. cbn [fst snd vs_a vs_b]. split; [lia|].
            intros (_ & G). apply H1. now apply forallb_firstn.
        + apply Bool.not_true_is_false in Tb. rewrite Tb at 2. cbn [gstepok uop_pure mo_a mo_b fst vs_a vs_b]. split; [|now split].
          unfold PR, pins, pout, pin. cbn [fst snd vs_a vs_b vs_r]. split; [lia|]. split; [lia|]. split; [|auto].
          split; [trivial|intros x; apply in_skip].
      - intros [[a b r] e] x a' y b' QA QB (s1 & s2 & Qc). cbn [uop_pure mo_a mo_b mo_coll fst vs_a vs_b] in *. subst a b.
        assert (M : meet x y).
        { unfold uhead_cmp in Qc. destruct (t_prefix x) as [|kx px] eqn:Px; [discriminate|].
          destruct (t_prefix y) as [|ky py] eqn:Py; [discriminate|].
          destruct (u_cmp u (snd s1) (kx, ky)) as [e' q0] eqn:Q. exists kx, px, ky, py. split; [assumption|]. split; [assumption|].
          exists (snd s1), e'. rewrite Q. destruct q0 as [q|]; [|discriminate]. now injection Qc as [= _ ->]. }
        unfold ucoll_pure. cbn [vs_a vs_b vs_r].
        pose proof (REC x y e) as H. destruct (rec x y e) as [[e' [t|]]|]; cbn [pu_ok yields] in H.
        + destruct H as (H1 & H2). cbn [gstepok uop_pure mo_a mo_b fst vs_a vs_b skipn]. split; [|now split].
          unfold PR, pins, pout, pin. cbn [fst snd vs_a vs_b vs_r].
          destruct (t_is_empty t) eqn:Em.
          * split; [lia|]. split; [lia|]. split; [split; intros z Hz; now right|]. auto.
          * rewrite lw_app, lw_one. split; [lia|]. split; [lia|]. split; [split; intros z Hz; now right|].
            intros Co (G1 & G2) G3. cbn [forallb] in G1, G2. apply andb_prop in G1, G2. unfold ns in G1 at 1, G2 at 1.
            destruct G1 as (G1 & _), G2 as (G2 & _). apply andb_prop in G1, G2.
            destruct (H2 Co (proj2 G1) (proj2 G2)) as (H3 & H4). rewrite forallb_app, G3. cbn [forallb]. unfold ns. rewrite H3.
            destruct (H4 M) as [H5|H5]; [congruence|]. now rewrite H5.
        + destruct H as (H1 & H2). cbn [gstepok]. unfold PP, pin. cbn [fst snd vs_a vs_b].
          split; [lia|]. intros (G1 & G2). cbn [forallb] in G1, G2. apply andb_prop in G1, G2.
          unfold ns in G1 at 1, G2 at 1. destruct G1 as (G1 & _), G2 as (G2 & _). apply andb_prop in G1, G2. now apply H2.
        + cbn [gstepok]. exists x, y. cbn [fst vs_a vs_b]. split; [now left|]. split; [now left|assumption].
      - intros [[a b r] e] x y s' q Ix Iy Q. cbn [uop_pure mo_a mo_b fst vs_a vs_b] in *.
        unfold uhead_cmp in Q. destruct (t_prefix x) as [|kx px] eqn:Px.
        { injection Q as [= <- <-]. cbn [fst vs_a vs_b]. split; [reflexivity|]. split; [reflexivity|].
          unfold PP, pin. cbn [fst snd vs_a vs_b]. split; [lia|].
          intros (G & _). rewrite forallb_forall in G. specialize (G x Ix). unfold ns, has_head in G. rewrite Px in G. discriminate. }
        destruct (t_prefix y) as [|ky py] eqn:Py.
        { injection Q as [= <- <-]. cbn [fst vs_a vs_b]. split; [reflexivity|]. split; [reflexivity|].
          unfold PP, pin. cbn [fst snd vs_a vs_b]. split; [lia|].
          intros (_ & G). rewrite forallb_forall in G. specialize (G y Iy). unfold ns, has_head in G. rewrite Py in G. discriminate. }
        cbn [fst snd] in Q. pose proof (OC e (kx, ky)) as C. destruct (u_cmp u e (kx, ky)) as [e' q0]. specialize (C _ _ eq_refl).
        injection Q as [= <- <-]. cbn [fst vs_a vs_b]. split; [reflexivity|]. split; [reflexivity|].
        destruct q0 as [q0|]; cbn iota beta in C; unfold nothing in C.
        + unfold PR, pins, pin, pout. cbn [fst snd vs_a vs_b vs_r]. split; [lia|]. split; [lia|]. split; [now split|tauto].
        + unfold PP, pin. cbn [fst snd]. split; [lia|]. tauto.
    Qed.
    Lemma uchildren_ok a b e : yields e (uchildren u strat rec ta tb ca cb a b e) (lw w)
      (fun c => Cons -> forallb ns a = true -> forallb ns b = true -> forallb ns c = true)
      (forallb ns a = true /\ forallb ns b = true)
      (exists x y, In x a /\ In y b /\ fuel <= t_size x + t_size y).
    Proof using OC REC CA CB.
      unfold uchildren.
      pose proof (gmerge_ok _ _ _ _ _ upure_steps strat (vs_new a b, e)) as H.
      destruct (gmerge _ _ _ _) as [s|s|s|]; cbn [gstepok yields] in *.
      - destruct H as ((H1 & H0 & _ & H3) & HA & HB). unfold pin, pout in *. cbn [fst snd vs_new vs_a vs_b vs_r] in *.
        rewrite (lw_nil w) in H1. split; [lia|]. intros Co G1 G2. now apply H3.
      - destruct H as (H1 & H0 & _ & H3). unfold pin, pout in *. cbn [fst snd vs_new vs_a vs_b vs_r] in *.
        rewrite (lw_nil w) in H1. split; [lia|]. intros Co G1 G2. now apply H3.
      - destruct H as (H1 & H2). unfold pin in *. cbn [fst snd vs_new vs_a vs_b vs_r] in *. split; [lia|]. tauto.
      - exact H.
    Qed.
  End Children.

  (** ** One node *)
  Lemma built_ok {V X} (w : V -> nat) fuel (a : rtree K V) (b : rtree K X) e e1 p v (ca : list (rtree K V)) (cb : list (rtree K X)) (r : given_back E (list (rtree K V))) (N : Prop) :
    yields e1 r (lw w) (fun c => Cons -> forallb ns ca = true -> forallb ns cb = true -> forallb ns c = true)
      (forallb ns ca = true /\ forallb ns cb = true) N ->
    led e + ow w v <= led e1 ->
    (shaped a = true -> shaped b = true -> forallb ns ca = true) -> (shaped a = true -> shaped b = true -> forallb ns cb = true) ->
    (N -> fuel <= t_size a + t_size b) ->
    (Cons -> meet a b -> p <> []) ->
    pu_ok w fuel a b e (ubuilt p v r).
  Proof using strat.
    intros H L S1 S2 HN M. unfold pu_ok, ubuilt.
    destruct r as [[e' [c|]]|]; cbn [then_ yields] in *; [|destruct H; split; [lia|tauto]|auto].
    destruct H as (H1 & H2). rewrite unsplit_w. cbn [tw]. fold (lw w c). split; [lia|].
    intros Co Sa Sb. split.
    - apply unsplit_shaped. rewrite shaped_eq. cbn [t_children]. auto.
    - intros Me. apply unsplit_head. unfold has_head. cbn [t_prefix]. specialize (M Co Me). now destruct p.
  Qed.
  Lemma pu_then {V X Y} (w : V -> nat) fuel (a : rtree K V) (b : rtree K X) e e0 (r : given_back E Y) wy (P : Y -> Prop) (B : Prop) k :
    gives e0 r wy P B -> led e <= led e0 -> (shaped a = true -> shaped b = true -> B) ->
    (forall y e', led e0 + wy y <= led e' -> P y -> pu_ok w fuel a b e (k y e')) ->
    pu_ok w fuel a b e (then_ r k).
  Proof using strat.
    intros H L HB K1. unfold pu_ok. eapply yields_then; [exact (gives_yields _ _ _ _ _ False H)|exact L|tauto|tauto|exact K1].
  Qed.
  (** the three ways in which children are merged *)
  Section Branch.
    Context {V X : Type} (w : V -> nat).
    Context (fuel : nat) (rec : rtree K V -> rtree K X -> E -> given_back E (rtree K V)).
    Context (REC : forall a b e, pu_ok w fuel a b e (rec a b e)).
    Context (ta tb : bool) (ca : rtree K V -> E -> given_back E (rtree K V)) (cb : rtree K X -> E -> given_back E (rtree K V)).
    Context (CA : ta = true -> forall t e, gives e (ca t e) (tw w) (fun t' => ns t' = true) (ns t = true)).
    Context (CB : tb = true -> forall t e, gives e (cb t e) (tw w) (fun t' => ns t' = true) (ns t = true)).
    Notation merge_children := (uchildren u strat rec ta tb ca cb).
    Context (a : rtree K V) (b : rtree K X) (e : E).
    Lemma firstn_ne {T} n (l : list T) : 0 < n -> n <= length l -> firstn n l <> [].
    Proof using. intros H1 H2 Q. apply (f_equal (@length T)) in Q. rewrite firstn_length_le in Q by assumption. cbn in Q. lia. Qed.
    Lemma pboth_ok n v e1 : led e + ow w v <= led e1 ->
      n <= length (t_prefix a) -> (Cons -> meet a b -> 0 < n) ->
      pu_ok w (S fuel) a b e (ubuilt (firstn n (t_prefix a)) v (merge_children (t_children a) (t_children b) e1)).
    Proof using OC REC CA CB.
      intros L Hn M. eapply built_ok; [apply (uchildren_ok w fuel); assumption|exact L| | | |].
      - now rewrite shaped_eq.
      - intros _. now rewrite shaped_eq.
      - intros (x & y & H1 & H2 & H3). pose proof (sizes_children a b x y H1 H2). lia.
      - intros Co Me. apply firstn_ne; [now apply M|assumption].
    Qed.
    Lemma plonger_ok n v e1 (b' : rtree K X) : led e + ow w v <= led e1 ->
      ns b' = true -> t_size b' = t_size b ->
      n <= length (t_prefix a) -> (Cons -> meet a b -> 0 < n) ->
      pu_ok w (S fuel) a b e (ubuilt (firstn n (t_prefix a)) v (merge_children (t_children a) [b'] e1)).
    Proof using OC REC CA CB.
      intros L N S1 Hn M. eapply built_ok; [apply (uchildren_ok w fuel); assumption|exact L| | | |].
      - now rewrite shaped_eq.
      - intros _ _. cbn [forallb]. now rewrite N.
      - intros (x & y & H1 & [<-|[]] & H3). apply size_child in H1. lia.
      - intros Co Me. apply firstn_ne; [now apply M|assumption].
    Qed.
    Lemma pshorter_ok n v e1 (a' : rtree K V) : led e + ow w v <= led e1 ->
      ns a' = true -> t_size a' = t_size a ->
      n <= length (t_prefix a) -> (Cons -> meet a b -> 0 < n) ->
      pu_ok w (S fuel) a b e (ubuilt (firstn n (t_prefix a)) v (merge_children [a'] (t_children b) e1)).
    Proof using OC REC CA CB.
      intros L N S1 Hn M. eapply built_ok; [apply (uchildren_ok w fuel); assumption|exact L| | | |].
      - intros _ _. cbn [forallb]. now rewrite N.
      - intros _. now rewrite shaped_eq.
      - intros (x & y & [<-|[]] & H2 & H3). apply size_child in H2. lia.
      - intros Co Me. apply firstn_ne; [now apply M|assumption].
    Qed.
  End Branch.
  (** children that are not merged *)
  Lemma pnone_ok {V X} (w : V -> nat) fuel (a : rtree K V) (b : rtree K X) e e1 p v (r : given_back E (list (rtree K V))) :
    yields e1 r (lw w) (fun c => forallb ns c = true) (shaped a = true) False ->
    led e + ow w v <= led e1 -> (Cons -> meet a b -> p <> []) ->
    pu_ok w fuel a b e (ubuilt p v r).
  Proof using strat.
    intros H L M. eapply built_ok with (ca := t_children a) (cb := t_children b) (N := False).
    - eapply yields_impl; [exact H| | |].
      + intros c Hc. cbn beta in Hc. split; [lia|auto].
      + rewrite shaped_eq. tauto.
      + tauto.
    - exact L.
    - now rewrite shaped_eq.
    - intros _. now rewrite shaped_eq.
    - tauto.
    - exact M.
  Qed.

  Section Outer.
    Context {V : Type} (w : V -> nat) (cl : clos E V V) (CL : usercall cl w) (f : clos E (V * V) (option V)) (FF : usercall f (ow w)).
    Notation cv := (fun _ => mat_cv Bl led w cl CL).
    Lemma uval_outer_gives v x e : gives e (uval_outer cl f v x e) (ow w) (fun _ => True) True.
    Proof using CL FF.
      destruct v as [v|], x as [x|]; cbn [uval_outer]; [now apply gives_call|now apply uclone_gives..|now apply gives_ret].
    Qed.
    Lemma uouter_ok : forall fuel a b e, pu_ok w fuel a b e (uouter u strat cl f fuel a b e).
    Proof using OE OC OL CL FF.
      induction fuel as [|fuel IH]; intros a b e; [unfold pu_ok; cbn [uouter yields]; lia|]. cbn [uouter].
      eapply pu_then; [exact (ucommon_gives u Bl led OE _ _ e)|lia|auto|].
      intros n e1 L1 (La & Lb & M). unfold nothing in L1. pose proof (meet_pos u a b n M) as MP. clear M.
      destruct (Nat.eqb_spec n (length (t_prefix a))) as [Ea|Ea], (Nat.eqb_spec n (length (t_prefix b))) as [Eb|Eb]; cbn [andb].
      - eapply pu_then; [apply uval_outer_gives|lia|auto|]. intros v e2 L2 _.
        apply (pboth_ok w fuel _ IH _ _ _ _ cv cv); [lia|assumption..].
      - eapply pu_then; [exact (umat_ns Bl led w cl CL b n e1)|lia|intros _ Q; split; [lia|assumption]|].
        intros b' e2 L2 (N2 & S2).
        eapply pu_then; [exact (uclone_gives Bl led w cl CL (t_value a) e2)|lia|auto|]. intros v e3 L3 _.
        apply (plonger_ok w fuel _ IH _ _ _ _ cv cv); [lia|assumption..].
      - eapply pu_then; [exact (umat_ns Bl led w cl CL a n e1)|lia|intros Q _; split; [lia|assumption]|].
        intros a' e2 L2 (N2 & S2).
        eapply pu_then; [exact (uclone_gives Bl led w cl CL (t_value b) e2)|lia|auto|]. intros v e3 L3 _.
        apply (pshorter_ok w fuel _ IH _ _ _ _ cv cv); [lia|assumption..].
      - eapply pu_then; [exact (umat_ns Bl led w cl CL a n e1)|lia|intros Q _; split; [lia|assumption]|].
        intros a' e2 L2 (N2 & S2).
        eapply pu_then; [exact (umat_ns Bl led w cl CL b n e2)|lia|intros _ Q; split; [lia|assumption]|].
        intros b' e3 L3 (N3 & S3).
        apply pnone_ok with (e1 := e1).
        + pose proof (usort2_gives u Bl led OL w a' b' e3) as H.
          destruct (usort2 u a' b' e3) as [[e4 [l|]]|]; cbn [RadixUserFacts.gives yields] in *; [|split; [lia|]|exact H].
          * destruct H as (H1 & H2 & H3). unfold nothing in H1. split; [lia|]. now rewrite H3, N2, N3.
          * intros _. apply H. unfold ns in N2, N3. apply andb_prop in N2, N3. tauto.
        + cbn [ow]. lia.
        + intros Co Me. apply firstn_ne; [now apply MP|assumption].
    Qed.
  End Outer.

  Section IL.
    Context {V X : Type} (w : V -> nat) (wx : X -> nat) (cl : clos E V V) (CL : usercall cl w) (cx : clos E X X) (CX : usercall cx wx).
    Notation cv := (fun _ => mat_cv Bl led w cl CL).
    Notation no := (no_conv_cv Bl led w).
    Section In.
    Context (f : clos E (V * X) (option V)) (FF : usercall f (ow w)).
    Lemma uval_inner_gives v x e : gives e (uval_inner f v x e) (ow w) (fun _ => True) True.
    Proof using FF. destruct v as [v|], x as [x|]; cbn [uval_inner]; [now apply gives_call|now apply gives_ret..]. Qed.
    Lemma uinner_ok : forall fuel a b e, pu_ok w fuel a b e (uinner u strat cl cx f fuel a b e).
    Proof using OE OC CL CX FF.
      induction fuel as [|fuel IH]; intros a b e; [unfold pu_ok; cbn [uinner yields]; lia|]. cbn [uinner].
      eapply pu_then; [exact (ucommon_gives u Bl led OE _ _ e)|lia|auto|].
      intros n e1 L1 (La & Lb & M). unfold nothing in L1. pose proof (meet_pos u a b n M) as MP. clear M.
      destruct (Nat.eqb_spec n (length (t_prefix a))) as [Ea|Ea], (Nat.eqb_spec n (length (t_prefix b))) as [Eb|Eb]; cbn [andb].
      - eapply pu_then; [apply uval_inner_gives|lia|auto|]. intros v e2 L2 _.
        apply (pboth_ok w fuel _ IH _ _ _ _ cv (no _)); [lia|assumption..].
      - eapply pu_then; [exact (umat_ns Bl led wx cx CX b n e1)|lia|intros _ Q; split; [lia|assumption]|].
        intros b' e2 L2 (N2 & S2).
        apply (plonger_ok w fuel _ IH _ _ _ _ cv (no _)); [cbn [ow]; lia|assumption..].
      - eapply pu_then; [exact (umat_ns Bl led w cl CL a n e1)|lia|intros Q _; split; [lia|assumption]|].
        intros a' e2 L2 (N2 & S2).
        apply (pshorter_ok w fuel _ IH _ _ _ _ cv (no _)); [cbn [ow]; lia|assumption..].
      - apply pnone_ok with (e1 := e1).
        + cbn [yields]. rewrite lw_nil. split; [lia|reflexivity].
        + cbn [ow]. lia.
        + intros Co Me. apply firstn_ne; [now apply MP|assumption].
    Qed.
    End In.
    Section Le.
    Context (f : clos E (V * option X) (option V)) (FF : usercall f (ow w)).
    Lemma uval_left_gives v x e : gives e (uval_left f v x e) (ow w) (fun _ => True) True.
    Proof using FF. destruct v as [v|]; cbn [uval_left]; [now apply gives_call|now apply gives_ret]. Qed.
    Lemma uleft_ok : forall fuel a b e, pu_ok w fuel a b e (uleft u strat cl cx f fuel a b e).
    Proof using OE OC CL CX FF.
      induction fuel as [|fuel IH]; intros a b e; [unfold pu_ok; cbn [uleft yields]; lia|]. cbn [uleft].
      eapply pu_then; [exact (ucommon_gives u Bl led OE _ _ e)|lia|auto|].
      intros n e1 L1 (La & Lb & M). unfold nothing in L1. pose proof (meet_pos u a b n M) as MP. clear M.
      destruct (Nat.eqb_spec n (length (t_prefix a))) as [Ea|Ea], (Nat.eqb_spec n (length (t_prefix b))) as [Eb|Eb]; cbn [andb].
      - eapply pu_then; [apply uval_left_gives|lia|auto|]. intros v e2 L2 _.
        apply (pboth_ok w fuel _ IH _ _ _ _ cv (no _)); [lia|assumption..].
      - eapply pu_then; [exact (umat_ns Bl led wx cx CX b n e1)|lia|intros _ Q; split; [lia|assumption]|].
        intros b' e2 L2 (N2 & S2).
        eapply pu_then; [exact (uclone_gives Bl led w cl CL (t_value a) e2)|lia|auto|]. intros v e3 L3 _.
        apply (plonger_ok w fuel _ IH _ _ _ _ cv (no _)); [lia|assumption..].
      - eapply pu_then; [exact (umat_ns Bl led w cl CL a n e1)|lia|intros Q _; split; [lia|assumption]|].
        intros a' e2 L2 (N2 & S2).
        apply (pshorter_ok w fuel _ IH _ _ _ _ cv (no _)); [cbn [ow]; lia|assumption..].
      - eapply pu_then; [exact (uclone_gives Bl led w cl CL (t_value a) e1)|lia|auto|]. intros v e2 L2 _.
        apply pnone_ok with (e1 := e2).
        + apply gives_yields. rewrite shaped_eq. exact (umat_all_gives Bl led w cl CL (t_children a) e2).
        + lia.
        + intros Co Me Q. specialize (MP Co Me). rewrite Q in La. cbn in La. lia.
    Qed.
    End Le.
  End IL.

  (** ** Predicates *)
  (** what a question gives: [B] says when a panic is the user's *)
  Definition bo_ok (e : E) (r : given_back E bool) (B N : Prop) : Prop := yields e r nothing (fun _ => True) B N.
  Section BoolChildren.
    Context {V X : Type} (fuel : nat) (rec : rtree K V -> rtree K X -> E -> given_back E bool).
    Context (REC : forall a b e, bo_ok e (rec a b e) (shaped a = true /\ shaped b = true) (fuel <= t_size a + t_size b)).
    Context (ta : bool).
    Notation bst := (bstate (rtree K V) (rtree K X) * E)%type.
    Definition bin (s : bst) : Prop := forallb ns (bs_a (fst s)) = true /\ forallb ns (bs_b (fst s)) = true.
    Definition bins (s s' : bst) : Prop :=
      (forall x, In x (bs_a (fst s')) -> In x (bs_a (fst s))) /\ (forall x, In x (bs_b (fst s')) -> In x (bs_b (fst s))).
    Definition BR (s s' : bst) : Prop := led (snd s) <= led (snd s') /\ bins s s'.
    Definition BP (s s' : bst) : Prop := led (snd s) <= led (snd s') /\ (bin s -> Bl).
    Definition BN (s : bst) : Prop := exists x y, In x (bs_a (fst s)) /\ In y (bs_b (fst s)) /\ fuel <= t_size x + t_size y.
    Lemma bins_bin s s' : bins s s' -> bin s -> bin s'.
    Proof using.
      intros (H1 & H2) (G1 & G2). unfold bin in *. rewrite forallb_forall in G1, G2 |- *. rewrite forallb_forall.
      split; intros x Hx; [apply G1, H1, Hx|apply G2, H2, Hx].
    Qed.
    Lemma drop_front_ok {T} (l : list T) n : n <= length l -> si_drop_front l n = Some (skipn n l).
    Proof using. intros H. unfold si_drop_front. now apply Nat.leb_le in H as ->. Qed.
    Lemma ubool_steps : gsteps (uhead_cmp u) (uop_bool rec ta) BR BP BN.
    Proof using strat OC REC.
      constructor.
      - intros s. unfold BR, bins. split; [lia|]. now split.
      - intros s1 s2 s3 (H1 & H2) (G1 & G2). unfold BR. split; [lia|].
        split; intros x Hx; [apply H2, G2, Hx|apply H2, G2, Hx].
      - intros s1 s2 s3 (H1 & H2) (G1 & G2). unfold BP. split; [lia|intros I; apply G2; now apply (bins_bin s1)].
      - intros s1 s2 (H1 & H2) (x & y & G1 & G2 & G3). exists x, y.
        split; [now apply H2|]. split; [now apply H2|assumption].
      - intros [[a b r] e] n L. cbn [mo_a mo_from_a uop_bool fst snd bs_a] in *. unfold bs_adv_a. cbn [bs_a bs_b bs_r].
        destruct ta; cbn [ustep gstepok].
        + unfold BR, bins. cbn [fst snd bs_a bs_b]. split; [lia|]. now split.
        + rewrite (drop_front_ok _ _ L). cbn [ustep gstepok uop_bool mo_a mo_b fst bs_a bs_b]. split; [|now split].
          unfold BR, bins. cbn [fst snd bs_a bs_b]. split; [lia|]. split; [intros x; apply in_skip|trivial].
      - intros [[a b r] e] n L. cbn [mo_b mo_from_b uop_bool fst snd bs_b] in *. unfold bs_adv_b. cbn [bs_a bs_b bs_r].
        rewrite (drop_front_ok _ _ L). cbn [ustep gstepok uop_bool mo_a mo_b fst bs_a bs_b]. split; [|now split].
        unfold BR, bins. cbn [fst snd bs_a bs_b]. split; [lia|]. split; [trivial|intros x; apply in_skip].
      - intros [[a b r] e] x a' y b' QA QB _. cbn [uop_bool mo_a mo_b mo_coll fst bs_a bs_b] in *. subst a b.
        unfold ucoll_bool. cbn [bs_a bs_b bs_r].
        pose proof (REC x y e) as H. destruct (rec x y e) as [[e' [q|]]|]; unfold bo_ok in H; cbn [yields] in H.
        + destruct H as (H1 & _). unfold nothing in H1. unfold bs_adv_a, bs_adv_b. cbn [bs_a bs_b bs_r].
          destruct q; cbn [obind ustep gstepok].
          * unfold BR, bins. cbn [fst snd bs_a bs_b]. split; [lia|]. now split.
          * rewrite drop_front_ok by (cbn [length]; lia). cbn [obind bs_a bs_b bs_r]. rewrite drop_front_ok by (cbn [length]; lia).
            cbn [ustep gstepok uop_bool mo_a mo_b fst bs_a bs_b]. split; [|now split].
            unfold BR, bins. cbn [fst snd bs_a bs_b skipn]. split; [lia|]. split; intros z Hz; now right.
        + destruct H as (H1 & H2). cbn [gstepok]. unfold BP, bin. cbn [fst snd bs_a bs_b].
          split; [lia|]. intros (G1 & G2). cbn [forallb] in G1, G2. apply andb_prop in G1, G2.
          unfold ns in G1 at 1, G2 at 1. destruct G1 as (G1 & _), G2 as (G2 & _). apply andb_prop in G1, G2. now apply H2.
        + cbn [gstepok]. exists x, y. cbn [fst bs_a bs_b]. split; [now left|]. split; [now left|assumption].
      - intros [[a b r] e] x y s' q Ix Iy Q. cbn [uop_bool mo_a mo_b fst bs_a bs_b] in *.
        unfold uhead_cmp in Q. destruct (t_prefix x) as [|kx px] eqn:Px.
        { injection Q as [= <- <-]. cbn [fst bs_a bs_b]. split; [reflexivity|]. split; [reflexivity|].
          unfold BP, bin. cbn [fst snd bs_a bs_b]. split; [lia|].
          intros (G & _). rewrite forallb_forall in G. specialize (G x Ix). unfold ns, has_head in G. rewrite Px in G. discriminate. }
        destruct (t_prefix y) as [|ky py] eqn:Py.
        { injection Q as [= <- <-]. cbn [fst bs_a bs_b]. split; [reflexivity|]. split; [reflexivity|].
          unfold BP, bin. cbn [fst snd bs_a bs_b]. split; [lia|].
          intros (_ & G). rewrite forallb_forall in G. specialize (G y Iy). unfold ns, has_head in G. rewrite Py in G. discriminate. }
        cbn [fst snd] in Q. pose proof (OC e (kx, ky)) as C. destruct (u_cmp u e (kx, ky)) as [e' q0]. specialize (C _ _ eq_refl).
        injection Q as [= <- <-]. cbn [fst bs_a bs_b]. split; [reflexivity|]. split; [reflexivity|].
        destruct q0 as [q0|]; cbn iota beta in C; unfold nothing in C.
        + unfold BR, bins. cbn [fst snd bs_a bs_b]. split; [lia|]. now split.
        + unfold BP, bin. cbn [fst snd]. split; [lia|]. tauto.
    Qed.
    Lemma ubool_ok a b e : bo_ok e (ubool u strat rec ta a b e)
      (forallb ns a = true /\ forallb ns b = true)
      (exists x y, In x a /\ In y b /\ fuel <= t_size x + t_size y).
    Proof using OC REC.
      unfold ubool, bo_ok.
      pose proof (gmerge_ok _ _ _ _ _ ubool_steps strat (bs_new a b, e)) as H.
      destruct (gmerge _ _ _ _) as [s|s|s|]; cbn [gstepok yields] in *; unfold nothing.
      - destruct H as ((H1 & _) & _). cbn [snd] in H1. split; [lia|trivial].
      - destruct H as (H1 & _). cbn [snd] in H1. split; [lia|trivial].
      - destruct H as (H1 & H2). unfold bin in *. cbn [fst snd bs_new bs_a bs_b] in *. split; [lia|]. tauto.
      - exact H.
    Qed.
  End BoolChildren.
  Lemma bo_impl e (r : given_back E bool) (B B' N N' : Prop) : bo_ok e r B N -> (B' -> B) -> (N -> N') -> bo_ok e r B' N'.
  Proof using. intros H I J. eapply yields_impl; [exact H|intros y _; split; [lia|trivial]|exact I|exact J]. Qed.
  Lemma bo_mono e e0 (r : given_back E bool) (B N : Prop) : bo_ok e0 r B N -> led e <= led e0 -> bo_ok e r B N.
  Proof using.
    unfold bo_ok, yields, nothing. destruct r as [[e' [y|]]|]; intros H L; [| |exact H]; destruct H; (split; [lia|assumption]).
  Qed.
  Lemma bo_then {Y} e e0 (r : given_back E Y) wy (P : Y -> Prop) (C B N : Prop) k :
    yields e0 r wy P C N -> led e <= led e0 -> (B -> C) ->
    (forall y e', led e <= led e' -> P y -> bo_ok e (k y e') B N) -> bo_ok e (then_ r k) B N.
  Proof using.
    intros H L HB K1. eapply yields_then; [exact H|exact L|exact HB|tauto|]. intros y e' L'. apply K1. lia.
  Qed.
  Lemma bo_ret e e' (q : bool) (B N : Prop) : led e <= led e' -> bo_ok e (Some (e', Ret q)) B N.
  Proof using. intros L. apply yields_ret; [unfold nothing; lia|trivial]. Qed.
  Lemma uany_ok {Y} (p : Y -> E -> given_back E bool) (B N : Prop) l :
    (forall x e, In x l -> bo_ok e (p x e) B N) -> forall e, bo_ok e (uany p l e) B N.
  Proof using.
    induction l as [|x l IH]; intros H e; cbn [uany]; [apply bo_ret; lia|].
    eapply bo_then; [apply H; now left|lia|tauto|]. intros q e' L _. destruct q; [now apply bo_ret|].
    apply (bo_mono e e'); [|exact L]. apply IH. intros z e2 Hz. apply H. now right.
  Qed.
  Lemma uall_ok {Y} (p : Y -> E -> given_back E bool) (B N : Prop) l :
    (forall x e, In x l -> bo_ok e (p x e) B N) -> forall e, bo_ok e (uall p l e) B N.
  Proof using.
    induction l as [|x l IH]; intros H e; cbn [uall]; [apply bo_ret; lia|].
    eapply bo_then; [apply H; now left|lia|tauto|]. intros q e' L _. destruct q; [|now apply bo_ret].
    apply (bo_mono e e'); [|exact L]. apply IH. intros z e2 Hz. apply H. now right.
  Qed.
  Lemma shaped_child {V} (t x : rtree K V) : In x (t_children t) -> shaped t = true -> shaped x = true /\ has_head x = true.
  Proof using.
    rewrite shaped_eq. intros I H. rewrite forallb_forall in H. specialize (H x I). unfold ns in H. apply andb_prop in H. tauto.
  Qed.
  Section Preds.
    Context {V X : Type}.
    Lemma uintersects0_ok : forall fuel (l : rtree K V) lp (r : rtree K X) rp e,
      bo_ok e (uintersects0 u strat fuel l lp r rp e) (shaped l = true /\ shaped r = true) (fuel <= t_size l + t_size r).
    Proof using OE OC.
      induction fuel as [|fuel IH]; intros l lp r rp e; [unfold bo_ok; cbn [uintersects0 yields]; lia|]. cbn [uintersects0].
      eapply bo_then; [exact (gives_yields _ _ _ _ _ _ (ucommon_gives u Bl led OE lp rp e))|lia|tauto|].
      intros n e1 L _.
      destruct ((n =? length lp) && (n =? length rp)).
      - destruct (match t_value l, t_value r with Some _, Some _ => true | _, _ => false end); [now apply bo_ret|].
        apply (bo_mono e e1); [|exact L]. eapply bo_impl; [apply (ubool_ok fuel); intros; apply IH| |].
        + rewrite !shaped_eq. trivial.
        + intros (x & y & H1 & H2 & H3). pose proof (sizes_children l r x y H1 H2). lia.
      - destruct (n =? length lp); [|destruct (n =? length rp); [|now apply bo_ret]].
        + apply (bo_mono e e1); [|exact L]. apply uany_ok. intros x e2 Hx. eapply bo_impl; [apply IH| |].
          * intros (S1 & S2). split; [now apply (shaped_child l)|assumption].
          * apply size_child in Hx. lia.
        + apply (bo_mono e e1); [|exact L]. apply uany_ok. intros x e2 Hx. eapply bo_impl; [apply IH| |].
          * intros (S1 & S2). split; [assumption|now apply (shaped_child r)].
          * apply size_child in Hx. lia.
    Qed.
    Lemma uis_subset0_ok : forall fuel (l : rtree K V) lp (r : rtree K X) rp e,
      bo_ok e (uis_subset0 u strat fuel l lp r rp e) (shaped l = true /\ shaped r = true) (fuel <= t_size l + t_size r).
    Proof using OE OC.
      induction fuel as [|fuel IH]; intros l lp r rp e; [unfold bo_ok; cbn [uis_subset0 yields]; lia|]. cbn [uis_subset0].
      eapply bo_then; [exact (gives_yields _ _ _ _ _ _ (ucommon_gives u Bl led OE lp rp e))|lia|tauto|].
      intros n e1 L _.
      destruct ((n =? length lp) && (n =? length rp)).
      - destruct (match t_value l, t_value r with None, _ => true | _, Some _ => true | _, _ => false end); [|now apply bo_ret].
        apply (bo_mono e e1); [|exact L].
        eapply bo_then; [|apply Nat.le_refl|exact (fun H => H)|intros q e2 L2 _; now apply bo_ret].
        eapply bo_impl; [apply (ubool_ok fuel)| |].
        + intros a b e2. eapply bo_then; [apply IH|lia|tauto|]. intros q e3 L3 _. now apply bo_ret.
        + rewrite !shaped_eq. trivial.
        + intros (x & y & H1 & H2 & H3). pose proof (sizes_children l r x y H1 H2). lia.
      - destruct (n =? length lp); [|destruct (n =? length rp); [|now apply bo_ret]].
        + destruct (t_value l); [now apply bo_ret|].
          apply (bo_mono e e1); [|exact L]. apply uall_ok. intros x e2 Hx. eapply bo_impl; [apply IH| |].
          * intros (S1 & S2). split; [now apply (shaped_child l)|assumption].
          * apply size_child in Hx. lia.
        + apply (bo_mono e e1); [|exact L]. apply uany_ok. intros x e2 Hx. eapply bo_impl; [apply IH| |].
          * intros (S1 & S2). split; [assumption|now apply (shaped_child r)].
          * apply size_child in Hx. lia.
    Qed.
  End Preds.

  (** ** Searching *)
  Section Find.
    Context {V : Type}.
    Definition found_ok (t : rtree K V) (r : find_result (K := K) (V := V)) : Prop :=
      match r with
      | Found t' => shaped t = true -> shaped t' = true
      | FPrefix t' rt => rt <= length (t_prefix t') /\ (shaped t = true -> shaped t' = true)
      | NotFound _ _ _ => True
      end.
    Lemma ufind_loop_ok : forall fuel (t : rtree K V) key e,
      yields e (ufind_loop u fuel t key e) nothing (found_ok t) (shaped t = true) (fuel <= t_size t).
    Proof using strat OE OC.
      induction fuel as [|fuel IH]; intros t key e; [cbn [ufind_loop yields]; lia|]. cbn [ufind_loop].
      eapply yields_then; [exact (gives_yields _ _ _ _ _ False (ucommon_gives u Bl led OE (t_prefix t) key e))|lia|tauto|tauto|].
      intros n e1 L (L1 & L2 & _). unfold nothing in L.
      destruct (Nat.eqb_spec (length key - n) 0) as [Rp|Rp], (Nat.eqb_spec (length (t_prefix t) - n) 0) as [Rt|Rt]; cbn [andb].
      - apply yields_ret; [unfold nothing; lia|]. cbn [found_ok]. trivial.
      - apply yields_ret; [unfold nothing; lia|]. cbn [found_ok]. split; [lia|trivial].
      - destruct (nth_error key n) as [c|] eqn:Q.
        2:{ apply nth_error_None in Q. lia. }
        destruct (wbsearch _ _ _) as [r e2] eqn:W.
        apply (wbsearch_run _ _ (fun e' => led e <= led e')) in W.
        2:{ intros s y s' q Is Iy. destruct (t_prefix y) as [|h p]; [discriminate|].
            pose proof (OC s (h, c)) as C. destruct (u_cmp u s (h, c)) as [e' [q'|]]; specialize (C _ _ eq_refl); [|discriminate].
            cbn iota beta in C. intros [= -> _]. lia. }
        2:{ lia. }
        destruct r as [i|i| |].
        + destruct W as (Li & L3 & _). destruct (nth_error (t_children t) i) as [x|] eqn:N.
          2:{ apply nth_error_None in N. lia. }
          apply nth_error_In in N. specialize (IH x (skipn n key) e2).
          unfold yields in IH |- *. destruct (ufind_loop u fuel x (skipn n key) e2) as [[e3 [y|]]|].
          * destruct IH as (I1 & I2). unfold nothing in *. split; [lia|]. destruct y as [t'|t' rt|]; cbn [found_ok] in *; [|split; [apply I2|]|trivial].
            -- intros S1. apply I2. now apply (shaped_child t).
            -- intros S1. apply I2. now apply (shaped_child t).
          * destruct IH as (I1 & I2). split; [lia|]. intros S1. apply I2. now apply (shaped_child t).
          * apply size_child in N. lia.
        + destruct W as (_ & L3). apply yields_ret; [unfold nothing; lia|exact I].
        + destruct W as (s1 & y & L3 & Iy & Qy). cbn [yields]. destruct (t_prefix y) as [|h p] eqn:Py.
          * injection Qy as [= <-]. split; [lia|]. intros S1. destruct (shaped_child t y Iy S1) as (_ & Hh).
            unfold has_head in Hh. rewrite Py in Hh. discriminate.
          * pose proof (OC s1 (h, c)) as C. destruct (u_cmp u s1 (h, c)) as [e' [q'|]]; [discriminate|].
            specialize (C _ _ eq_refl). cbn iota beta in C. injection Qy as [= ->]. split; [lia|tauto].
        + destruct W.
      - apply yields_ret; [unfold nothing; lia|exact I].
    Qed.
    Lemma ufind_ok (t : rtree K V) key e : gives e (ufind u t key e) nothing (found_ok t) (shaped t = true).
    Proof using strat OE OC.
      pose proof (ufind_loop_ok (S (t_size t)) t key e) as H. unfold ufind, yields, RadixUserFacts.gives in *.
      destruct (ufind_loop _ _ _ _ _) as [[e' [y|]]|]; [exact H|exact H|lia].
    Qed.
    Lemma uget_ok (t : rtree K V) key e : gives e (urt_get u t key e) nothing (fun _ => True) (shaped t = true).
    Proof using strat OE OC.
      unfold urt_get. eapply gives_then; [apply ufind_ok|tauto|]. intros y e' L _. unfold nothing in L.
      unfold RadixUserFacts.gives, nothing. split; [lia|trivial].
    Qed.
    Lemma ucontains_ok (t : rtree K V) key e : gives e (urt_contains_key u t key e) nothing (fun _ => True) (shaped t = true).
    Proof using strat OE OC.
      unfold urt_contains_key. eapply gives_then; [apply ufind_ok|tauto|]. intros y e' L _. unfold nothing in L.
      unfold RadixUserFacts.gives, nothing. split; [lia|trivial].
    Qed.
    Lemma ufilter_prefix_ok (w : V -> nat) (cl : clos E V V) (CL : usercall cl w) (t : rtree K V) prefix e :
      gives e (urt_filter_prefix u cl t prefix e) (tw w) (fun t' => shaped t = true -> shaped t' = true) (shaped t = true).
    Proof using strat OE OC.
      unfold urt_filter_prefix. eapply gives_then; [apply ufind_ok|tauto|]. intros y e1 L F. unfold nothing in L.
      destruct y as [t'|t' rt|]; cbn [found_ok] in F.
      - eapply gives_mono; [|instantiate (1 := e1); lia].
        eapply gives_then; [exact (uclone_tree_gives Bl led w cl CL t' e1)|tauto|]. intros t2 e2 L2 (S2 & _).
        unfold RadixUserFacts.gives. rewrite tw_same. split; [lia|]. intros S1. rewrite shaped_same, S2. auto.
      - eapply gives_mono; [|instantiate (1 := e1); lia].
        eapply gives_then; [exact (uclone_tree_gives Bl led w cl CL t' e1)|tauto|]. intros t2 e2 L2 (S2 & P2).
        rewrite P2. destruct F as (F1 & F2). apply Nat.leb_le in F1. rewrite F1.
        unfold RadixUserFacts.gives. rewrite prepend_w, tw_same. split; [lia|]. intros S1. rewrite prepend_shaped, shaped_same, S2. auto.
      - unfold RadixUserFacts.gives. split; [cbn; lia|reflexivity].
    Qed.
  End Find.
End Pure.

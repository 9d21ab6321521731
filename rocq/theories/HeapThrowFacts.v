(** The operations of HeapThrowModel.v: when nothing panics they are those of HeapModel.v; a panic changes no tree. *)
From Coq Require Import Permutation.
From Verif Require Export HeapFrame HeapRefine HeapThrowSpec.

Section ThrowFacts.
  Context {K V : Type} {E : Type} (vcl : E -> V -> E * bool).
  Notation tree := (rtree K V).
  Notation node := (node K V).
  Notation heap := (heap K V).
  Implicit Types (h : heap) (ns : list node) (ts : list tree).

  Lemma drop_pres h work C : Inv h (work ++ C) -> exists h', drop_all h work = Some h' /\ Inv h' C /\ pres h h' C /\ mono h h'.
  Proof.
    intros I. destruct (drop_frame h work C I) as (h' & Q & I' & F & M). exists h'. split; [exact Q|]. split; [exact I'|].
    split; [now apply frame_pres|exact M].
  Qed.
  Lemma pres_refl h C : pres h h C.
  Proof. now intros m t. Qed.

  (** the result of an operation: as without panics, or [P] *)
  Definition okt {X Y : Type} (orig : option X) (P : Y -> Prop) (r : eres (X * E) (Y * E)) : Prop :=
    match r with EOk (x, _) => orig = Some x | EThrow (y, _) => P y | EFault => False end.

  Lemma te_node_clone_ok h n e C : Inv h C -> present h C n ->
    okt (node_clone h n) (fun h' => h' = h) (te_node_clone vcl h n e).
  Proof.
    intros I P. unfold te_node_clone, okt. destruct (ocl vcl e (n_value n)) as [e1 [|]]; auto.
    destruct (node_clone_inv h C n I P) as (h' & -> & _). reflexivity.
  Qed.
  Lemma te_nodes_clone_ok ns : forall done h e C, Inv h (done ++ C) -> (forall n, In n ns -> present h (done ++ C) n) ->
    match te_nodes_clone vcl done h ns e with
    | EOk (h', l, _) => exists ms, nodes_clone h ns = Some (h', ms) /\ l = done ++ ms
    | EThrow (h', _) => Inv h' C /\ pres h h' C /\ mono h h'
    | EFault => False
    end.
  Proof.
    induction ns as [|n ns IH]; intros done h e C I P; cbn [te_nodes_clone nodes_clone].
    - exists []. split; [reflexivity|now rewrite app_nil_r].
    - assert (Pn : present h (done ++ C) n) by (apply P; now left).
      pose proof (te_node_clone_ok h n e _ I Pn) as T. unfold okt in T.
      destruct (node_clone_inv h _ n I Pn) as (h1 & Qn & I1 & G). rewrite Qn in *. pose proof (grows_ext _ _ G) as X.
      destruct (te_node_clone vcl h n e) as [[[h1' n'] e1]|[h1' e1]|]; [|subst h1'|easy].
      + injection T as -> ->. assert (I2 : Inv h1' ((done ++ [n']) ++ C)).
        { eapply inv_perm; [|exact I1]. rewrite <- app_assoc. apply Permutation_middle. }
        specialize (IH (done ++ [n']) h1' e1 C I2).
        assert (P2 : forall m, In m ns -> present h1' ((done ++ [n']) ++ C) m).
        { intros m Hm. apply (present_ext h _ (done ++ C)); [exact X| |apply P; now right].
          intros y. rewrite !in_app_iff. tauto. }
        specialize (IH P2). destruct (te_nodes_clone vcl (done ++ [n']) h1' ns e1) as [[[h2 l] e2]|[h2 e2]|]; [| |easy].
        * destruct IH as (ms & -> & ->). exists (n' :: ms). split; [reflexivity|]. now rewrite <- app_assoc.
        * destruct IH as (I3 & P3 & M3). split; [exact I3|]. split; [eapply pres_trans; [apply pres_ext; exact X|exact P3]|].
          eapply mono_trans; [|exact M3]. eapply (mono_clone [n']). cbn [nodes_clone]. rewrite Qn. reflexivity.
      + destruct (drop_pres h done C I) as (h2 & -> & F). exact F.
  Qed.
  Lemma te_make_mut_ok h C p v a e : Inv h (MkN p v (inr a) :: C) ->
    okt (make_mut h a) (fun h' => Inv h' (MkN p v (inr a) :: C) /\ pres h h' (MkN p v (inr a) :: C) /\ mono h h') (te_make_mut vcl h a e).
  Proof.
    intros I. destruct (make_mut_inv h C p v a I) as (h9 & a9 & _ & _ & Q & _). unfold te_make_mut, okt, make_mut in *.
    destruct (h_cell h a) as [[[|[|rc]] ns]|] eqn:Ha; try discriminate; [reflexivity|].
    pose proof (te_nodes_clone_ok ns [] h e (MkN p v (inr a) :: C) I) as T.
    assert (P : forall n, In n ns -> present h ([] ++ MkN p v (inr a) :: C) n) by (intros n Hn; right; eauto 6). specialize (T P).
    destruct (te_nodes_clone vcl [] h ns e) as [[[h1 l] e1]|[h1 e1]|]; [|exact T|easy].
    destruct T as (ms & Qc & ->). cbn [app]. rewrite Qc in *.
    destruct (arc_new h1 ms) as [h2 a']. destruct (h_cell h2 a) as [[[|[|r]] ks]|]; try discriminate. reflexivity.
  Qed.
  Lemma te_force_cases h n e : (exists e1, te_force vcl h n e = EOk (force h n, e1)) \/ (exists e1, te_force vcl h n e = EThrow e1).
  Proof.
    unfold te_force, force. destruct (n_kids n) as [ts|a]; [|eauto]. destruct (te_values vcl ts e) as [e1 [|]]; [left|right]; eauto.
  Qed.

  Definition keeps h C (n : node) t (y : heap * node) : Prop :=
    let (h', n') := y in Inv h' (n' :: C) /\ den h' n' t /\ pres h h' C /\ mono h h'.
  Lemma te_children_mut_ok h C n p v ts e : Inv h (n :: C) -> den h n (Node p v ts) ->
    okt (children_mut h n) (keeps h C n (Node p v ts)) (te_children_mut vcl h n e).
  Proof.
    intros I D. unfold te_children_mut, children_mut, okt, keeps.
    destruct (te_force_cases h n e) as [(e1 & ->)|(e1 & ->)]; [|split; [exact I|split; [exact D|split; [apply pres_refl|apply mono_refl]]]].
    destruct (force h n) as [h1 a] eqn:Q. destruct (force_inv h C n h1 a I Q) as (I1 & G & Dn). apply Dn in D.
    pose proof (te_make_mut_ok h1 C (n_prefix n) (n_value n) a e1 I1) as T. unfold okt in T. change (MkN (n_prefix n) (n_value n) (inr a)) with (with_arc n a) in T.
    destruct (te_make_mut vcl h1 a e1) as [[[h2 a'] e2]|[h2 e2]|]; [|destruct T as (I2 & P2 & M2)|easy].
    - now rewrite T.
    - split; [exact I2|]. split; [apply P2; [now left|exact D]|]. split; [|eapply mono_trans; [eapply mono_force; exact Q|exact M2]].
      eapply pres_trans; [apply pres_ext, grows_ext; exact G|]. eapply pres_incl; [|exact P2]. intros y Hy. now right.
  Qed.

  Definition tact_ok (inp : list node) (tin : list tree) (act : action) (pact : tree -> option (tree * option tree)) (tact : taction (E := E)) : Prop :=
    forall C h n t t' out e, Inv h (n :: inp ++ C) -> den h n t -> dens h inp tin -> pact t = Some (t', out) ->
      okt (act h n) (keeps h (inp ++ C) n t) (tact h n e).

  Lemma te_act_insert_ok j m tm : tact_ok [m] [tm] (act_insert j m) (t_insert j tm) (te_act_insert vcl j m).
  Proof.
    intros C h n [p v ts] t' out e I D Di Q. destruct (act_insert_ok j m tm C h n _ t' out I D Di Q) as (h9 & n9 & o9 & Q9 & _).
    unfold te_act_insert, act_insert in *. pose proof (te_children_mut_ok h _ n p v ts e I D) as T. unfold okt in *.
    destruct (te_children_mut vcl h n e) as [[[[h1 n1] a] e1]|[[h1 n1] e1]|]; [rewrite T in *|exact T|easy].
    destruct (h_cell h1 a) as [[rc ns]|]; [|discriminate]. now destruct (j <=? length ns).
  Qed.
  Lemma te_act_remove_ok j : tact_ok [] [] (act_remove j) (t_remove j) (te_act_remove vcl j).
  Proof.
    intros C h n [p v ts] t' out e I D Di Q. destruct (act_remove_ok j C h n _ t' out I D Di Q) as (h9 & n9 & o9 & Q9 & _).
    unfold te_act_remove, act_remove in *. pose proof (te_children_mut_ok h _ n p v ts e I D) as T. unfold okt in *.
    destruct (te_children_mut vcl h n e) as [[[[h1 n1] a] e1]|[[h1 n1] e1]|]; [rewrite T in *|exact T|easy].
    destruct (h_cell h1 a) as [[rc ns]|]; [|discriminate]. now destruct (nth_error ns j).
  Qed.
  Lemma te_act_prefix_ok p : tact_ok [] [] (act_prefix p) (t_set_prefix p) (te_act_prefix p).
  Proof. intros C h n t t' out e I D Di Q. reflexivity. Qed.
  Lemma te_act_value_ok v : tact_ok [] [] (act_value v) (t_set_value v) (te_act_value v).
  Proof. intros C h n t t' out e I D Di Q. reflexivity. Qed.

  Lemma te_mut_at_ok inp tin act pact tact path : act_ok inp tin act pact -> tact_ok inp tin act pact tact ->
    tact_ok inp tin (mut_at path act) (tmut path pact) (te_mut_at vcl path tact).
  Proof.
    intros A TA. induction path as [|i path IH]; [exact TA|]. intros C h n t t' out e I D Di Q.
    destruct (mut_at_ok _ _ _ _ (i :: path) A C h n t t' out I D Di Q) as (h9 & n9 & o9 & Q9 & _). rewrite Q9.
    cbn [tmut] in Q. destruct t as [p v ts]. destruct (nth_error ts i) as [tc|] eqn:Ht; [|discriminate].
    destruct (tmut path pact tc) as [[tc' x]|] eqn:Qc; [|discriminate]. cbn [mut_at te_mut_at] in *.
    pose proof (te_children_mut_ok h _ n p v ts e I D) as T. unfold okt in T.
    destruct (children_mut_inv h (inp ++ C) n p v ts I D) as (h1 & a & ns & Qm & I1 & X1 & Ha & Dn). rewrite Qm in *.
    destruct (te_children_mut vcl h n e) as [[[[h1' n1] b] e1]|[[h1' n1] e1]|]; [injection T as <- <- <-|exact T|easy].
    rewrite Ha in *. pose proof (dens_nth h1 ns ts i Dn) as Hc. rewrite Ht in Hc. destruct (nth_error ns i) as [c|] eqn:Hn; [|easy].
    destruct (borrow_inv _ _ _ _ _ _ I1 Ha) as (I2 & P2 & Hlt). set (h2 := h_upd h1 a None) in *.
    pose proof (nth_split3 ns i c Hn) as Sp. set (l := firstn i ns) in *. set (r := skipn (S i) ns) in *.
    assert (I2' : Inv h2 (c :: inp ++ ((l ++ r) ++ C))).
    { eapply inv_perm; [|exact I2]. rewrite Sp at 1. rewrite <- !app_assoc. simpl.
      etransitivity; [apply Permutation_sym, Permutation_middle|]. apply perm_skip.
      rewrite !app_assoc. apply Permutation_app_tail. rewrite <- (app_assoc inp). apply Permutation_app_comm. }
    assert (Dc : den h2 c tc) by (apply P2; auto; apply in_or_app; left; eapply nth_error_In; eauto).
    assert (Di2 : dens h2 inp tin).
    { eapply pres_dens; [|exact P2|now apply (den_ext h h1 X1)]. intros y Hy. apply in_or_app. right. apply in_or_app. now left. }
    pose proof (IH _ h2 c tc tc' x e1 I2' Dc Di2 Qc) as TI. unfold okt in TI |- *.
    destruct (te_mut_at vcl path tact h2 c e1) as [[[[h3 c'] y] e3]|[[h3 c'] e3]|]; [rewrite TI in Q9; now injection Q9 as <- <- <-| |exact TI].
    destruct TI as (I3 & D3 & P3 & M3). unfold keeps.
    assert (Ha3 : h_cell h3 a = None) by (apply M3; [exact Hlt|apply upd_same]).
    assert (Hlt3 : a < h_next h3) by (destruct M3 as [M3 _]; cbn in M3; lia).
    change (upd_nth i c' ns) with (l ++ c' :: r).
    assert (I3' : Inv h3 ((l ++ c' :: r) ++ inp ++ C)).
    { eapply inv_perm; [|exact I3]. rewrite <- (app_assoc l (c' :: r)). simpl. etransitivity; [|apply Permutation_middle]. apply perm_skip.
      rewrite !app_assoc. apply Permutation_app_tail. rewrite <- (app_assoc inp). apply Permutation_app_comm. }
    destruct (giveback_inv h3 (inp ++ C) p v a _ I3' Ha3 Hlt3) as (I4 & X4).
    split; [exact I4|].
    assert (Pl : pres h2 h3 (l ++ r)).
    { eapply pres_incl; [|exact P3]. intros z Hz. apply in_or_app. right. apply in_or_app. now left. }
    assert (Inl : incl (l ++ r) ns) by (rewrite Sp; intros z; rewrite !in_app_iff; simpl; tauto).
    assert (Dl : dens h3 l (firstn i ts) /\ dens h3 r (skipn (S i) ts)).
    { assert (D2 : dens h2 ns ts) by (eapply pres_dens; [|exact P2|exact Dn]; intros z Hz; apply in_or_app; now left).
      split; (eapply pres_dens; [|exact Pl|]); [|now apply dens_firstn| |now apply dens_skipn]; intros z Hz; apply in_or_app; auto. }
    destruct Dl as [Dl Dr]. split; [|split].
    - rewrite (nth_split3 ts i tc Ht). econstructor; [apply upd_same|]. apply (den_ext h3 _ X4). apply dens_join; auto. constructor; auto.
    - intros m t Hm Dm. apply (den_ext h3 _ X4).
      assert (Hm2 : In m (ns ++ inp ++ C)) by (apply in_or_app; now right).
      assert (Hm3 : In m (inp ++ (l ++ r) ++ C)) by (apply in_app_or in Hm as [Hm|Hm]; apply in_or_app; [now left|right; apply in_or_app; now right]).
      apply P3; [exact Hm3|]. apply P2; [exact Hm2|]. now apply (den_ext h h1 X1).
    - apply mono_children_mut in Qm. destruct Qm as [M1 M1']. destruct M3 as [M3 M3']. split; [cbn in *; lia|].
      intros b Hb N. specialize (M1' b Hb N). assert (b <> a) by congruence. rewrite upd_other by auto. apply M3'; [cbn; lia|].
      unfold h2. now rewrite upd_other.
  Qed.

  (** reading *)
  Lemma te_touch_at_ok path : forall h C a rc ns ts p v u e, Inv h C -> h_cell h a = Some (rc, ns) -> dens h ns ts ->
    t_sub path (Node p v ts) = Some u ->
    okt (touch_at path h a) (fun h' => Inv h' C /\ forall m t, den h m t -> den h' m t) (te_touch_at vcl path h a e).
  Proof.
    induction path as [|i path IH]; intros h C a rc ns ts p v u e I Ha D Hp; cbn [touch_at te_touch_at]; [reflexivity|].
    cbn [t_sub t_children] in Hp. pose proof (dens_nth h ns ts i D) as Hi.
    destruct (nth_error ts i) as [tc|] eqn:Ht; [|discriminate]. destruct (nth_error ns i) as [c|] eqn:Hn; [|easy].
    destruct (force_at_inv h C a i rc ns c I Ha Hn) as (h1 & b & ns' & Qf & I1 & P & Ha1 & Hn1 & Pc). rewrite Qf, Ha1, Hn1. cbn [with_arc n_kids].
    unfold te_force_at. unfold force_at in Qf. rewrite Ha, Hn in *.
    destruct (te_force_cases h c e) as [(e1 & ->)|(e1 & ->)]; [|split; [exact I|auto]].
    destruct (force h c) as [h0 b0]. injection Qf as Qh. rewrite Qh, Ha1, Hn1. clear Qh. cbn [with_arc n_kids].
    apply Pc in Hi. destruct tc as [cp cv us]. unfold with_arc in Hi. inversion Hi; subst.
    match goal with Hb : h_cell h1 b = Some _, Dd : dens h1 _ us |- _ => pose proof (IH h1 C b _ _ us _ _ u e1 I1 Hb Dd Hp) as T end.
    unfold okt in *. destruct (te_touch_at vcl path h1 b e1) as [[[h2 d] e2]|[h2 e2]|]; [exact T| |exact T].
    destruct T as (I2 & P2). split; [exact I2|]. intros m t Dm. apply P2. now apply P.
  Qed.
  Lemma te_touch_ok path h C n t u e : Inv h (n :: C) -> den h n t -> t_sub path t = Some u ->
    okt (touch path h n) (fun y : heap * node => let (h', n') := y in Inv h' (n' :: C) /\ den h' n' t /\ pres h h' C) (te_touch vcl path h n e).
  Proof.
    intros I D Hp. unfold te_touch, touch.
    destruct (te_force_cases h n e) as [(e1 & ->)|(e1 & ->)]; [|split; [exact I|split; [exact D|apply pres_refl]]].
    destruct (force h n) as [h1 a] eqn:Q. destruct (force_inv h C n h1 a I Q) as (I1 & G & Dn).
    apply Dn in D. destruct t as [p v ts]. pose proof D as D0. unfold with_arc in D0. inversion D0; subst.
    match goal with Hb : h_cell h1 a = Some _, Dd : dens h1 _ ts |- _ => pose proof (te_touch_at_ok path h1 (with_arc n a :: C) a _ _ ts _ _ u e1 I1 Hb Dd Hp) as T end.
    unfold okt in *. destruct (te_touch_at vcl path h1 a e1) as [[[h2 d] e2]|[h2 e2]|]; [now rewrite T| |exact T].
    destruct T as (I2 & P2). split; [exact I2|]. split; [now apply P2|]. intros m t _ Dm. apply P2. now apply (den_ext h h1 (grows_ext _ _ G)).
  Qed.

  (** conversion of an archived tree *)
  Lemma te_of_tree_ok (arc : bool) t : forall h C e, Inv h (@static K V :: C) -> den h (@static K V) (Node [] None []) ->
    okt (of_tree arc false h t) (fun h' => Inv h' (@static K V :: C) /\ pres h h' (@static K V :: C)) (te_of_tree vcl h t e).
  Proof.
    induction t as [p v ts IH] using rtree_ind'. intros h C e I Ds. cbn [of_tree te_of_tree].
    match goal with |- okt (match ?g h ts with _ => _ end) _ _ => set (go := g) end.
    match goal with |- okt _ _ (match ?g [] h ts e with _ => _ end) => set (tgo := g) end.
    assert (G : forall done h C e, Inv h (done ++ @static K V :: C) -> den h (@static K V) (Node [] None []) ->
      match tgo done h ts e with
      | EOk (h', l, _) => exists ms, go h ts = Some (h', ms) /\ l = done ++ ms /\ Inv h' (l ++ @static K V :: C) /\ pres h h' (@static K V :: C)
      | EThrow (h', _) => Inv h' (@static K V :: C) /\ pres h h' (@static K V :: C)
      | EFault => False
      end).
    { clear h C e I Ds. induction IH as [|t ts Ht _ IH]; intros done h C e I Ds.
      - cbn. exists []. rewrite app_nil_r. split; [reflexivity|]. split; [reflexivity|]. split; [exact I|]. apply pres_refl.
      - assert (Is : Inv h (@static K V :: done ++ C)) by (eapply inv_perm; [|exact I]; apply Permutation_sym, Permutation_middle).
        pose proof (Ht h _ e Is Ds) as T. destruct (of_tree_inv arc false t h _ Is Ds) as (h1 & n & Q1 & I1 & X1 & D1).
        cbn [go tgo] in *. rewrite Q1 in *. unfold okt in T.
        destruct (te_of_tree vcl h t e) as [[[h1' n'] e1]|[h1' e1]|]; [injection T as <- <-| |easy].
        + assert (I2 : Inv h1 ((done ++ [n]) ++ @static K V :: C)).
          { eapply inv_perm; [|exact I1]. rewrite <- app_assoc. simpl. etransitivity; [|apply Permutation_middle]. apply perm_skip, Permutation_middle. }
          assert (Ds1 : den h1 (@static K V) (Node [] None [])) by now apply (den_ext h h1 X1).
          specialize (IH (done ++ [n]) h1 C e1 I2 Ds1). fold tgo go in IH |- *.
          destruct (tgo (done ++ [n]) h1 ts e1) as [[[h2 l] e2]|[h2 e2]|]; [| |exact IH].
          * destruct IH as (ms & Qg & -> & I3 & P3). exists (n :: ms). rewrite Qg. split; [reflexivity|].
            split; [now rewrite <- app_assoc|]. split; [exact I3|].
            eapply pres_trans; [apply pres_ext; exact X1|exact P3].
          * destruct IH as (I3 & P3). split; [exact I3|]. eapply pres_trans; [apply pres_ext; exact X1|exact P3].
        + destruct T as (I1' & P1'). assert (I2 : Inv h1' (done ++ @static K V :: C)) by (eapply inv_perm; [|exact I1']; apply Permutation_middle).
          destruct (drop_pres h1' done _ I2) as (h2 & -> & I3 & P3 & _). split; [exact I3|].
          eapply pres_trans; [|exact P3]. eapply pres_incl; [|exact P1']. intros y [->|Hy]; [now left|right; apply in_or_app; now right]. }
    specialize (G [] h C e I Ds). destruct (tgo [] h ts e) as [[[h1 l] e1]|[h1 e1]|]; [|exact G|easy].
    destruct G as (ms & -> & -> & I1 & P1). cbn [app] in *.
    destruct (arc_new h1 ms) as [h2 a] eqn:Qa. destruct (new_inv h1 ms _ p None h2 a I1 Qa) as (I2 & Gr & _).
    destruct (ocl vcl e1 v) as [e2 [|]]; [reflexivity|].
    destruct (drop_pres h2 [MkN p None (inr a)] _ I2) as (h3 & -> & I3 & P3 & _). cbn [okt]. split; [exact I3|].
    eapply pres_trans; [exact P1|]. eapply pres_trans; [apply pres_ext, grows_ext; exact Gr|exact P3].
  Qed.

  (** registers *)
  Lemma rtake_back i (vs : regs tree) t v1 : rtake i vs = Some (t, v1) -> rput i t v1 = Some vs.
  Proof. unfold rtake. destruct (rget i vs) as [u|] eqn:Q; [|discriminate]. intros [= -> <-]. now apply take_put. Qed.
  Lemma te_in_reg_ok i act pact tact inp tin h s vs vs' x e :
    act_ok inp tin act pact -> tact_ok inp tin act pact tact -> Inv h (@static K V :: inp ++ nodes_of s) ->
    den h (@static K V) (Node [] None []) -> dens h inp tin -> rel h s vs -> vreg i pact vs = Some (vs', x) ->
    match te_in_reg i tact h s e with
    | EOk (h1, s1, o, _) => in_reg i act h s = Some (h1, s1, o)
    | EThrow (h1, s1, _) => Inv h1 (@static K V :: inp ++ nodes_of s1) /\ den h1 (@static K V) (Node [] None []) /\ dens h1 inp tin /\ rel h1 s1 vs
    | EFault => False
    end.
  Proof.
    intros A TA I Ds Di R H. destruct (in_reg_good i act pact inp tin h s vs vs' x A I Ds Di R H) as (h9 & s9 & o9 & Q9 & _).
    unfold vreg in H. destruct (rtake i vs) as [[t v1]|] eqn:Q; [|discriminate].
    destruct (pact t) as [[t' x']|] eqn:Qp; [|discriminate]. clear H.
    unfold te_in_reg, in_reg in *. destruct (rtake_rel h s vs i t v1 R Q) as (n & s1 & Qs & D & R1 & P1). rewrite Qs in *.
    assert (I' : Inv h (n :: inp ++ (@static K V :: nodes_of s1))).
    { eapply inv_perm; [|exact I]. rewrite P1. etransitivity; [apply perm_skip, Permutation_sym, Permutation_middle|].
      etransitivity; [apply perm_swap|]. apply perm_skip, Permutation_middle. }
    pose proof (TA _ h n t t' x' e I' D Di Qp) as T. unfold okt in T.
    destruct (tact h n e) as [[[[h1 n1] o] e1]|[[h1 n1] e1]|]; [|destruct T as (I1 & D1 & P & _)|easy].
    - rewrite T in *. destruct (rput i n1 s1); [reflexivity|discriminate].
    - assert (R2 : rel h1 s1 v1) by (eapply rel_pres; [|exact R1]; eapply pres_incl; [|exact P]; intros y Hy; apply in_or_app; right; now right).
      destruct (rput_rel h1 s1 v1 i n1 t vs R2 D1 (rtake_back i vs t v1 Q)) as (s2 & -> & R3 & P2).
      split; [|split; [apply P; [apply in_or_app; right; now left|exact Ds]|split; [|exact R3]]].
      + eapply inv_perm; [|exact I1]. rewrite P2. etransitivity; [|apply perm_skip, Permutation_middle].
        etransitivity; [|apply perm_swap]. apply perm_skip, Permutation_sym, Permutation_middle.
      + eapply pres_dens; [|exact P|exact Di]. intros y Hy. apply in_or_app. now left.
  Qed.

  (** one step *)
  Lemma te_step_good (arc : bool) (o : op K V) st vs vs' e : good st vs -> vstep o vs = Some vs' ->
    exists st' e' ok, te_step vcl arc o st e = Some (st', e', ok) /\
      if ok then hstep arc o st = Some st' /\ good st' vs' else exists vs2, vpanic o vs = Some vs2 /\ good st' vs2.
  Proof.
    intros G H. destruct (step_good arc o st vs vs' G H) as (st9 & Q9 & G9).
    assert (Easy : match hstep arc o st with Some st1 => Some (st1, e, true) | None => None end = te_step vcl arc o st e ->
      exists st' e' ok, te_step vcl arc o st e = Some (st', e', ok) /\
        if ok then hstep arc o st = Some st' /\ good st' vs' else exists vs2, vpanic o vs = Some vs2 /\ good st' vs2).
    { intros <-. rewrite Q9. exists st9, e, true. auto. }
    destruct st as [h s]. destruct G as (I & Ds & R). cbn [fst snd] in *.
    destruct o as [k|p v src k|w t k|t k|i k|i|i k|i path|i path c k|i path p|i path v|i path pos src|i path pos k]; try (apply Easy; reflexivity); clear Easy.
    - destruct w; [cbn [te_step]; rewrite Q9; exists st9, e, true; auto|]. cbn [te_step hstep vpanic may_panic] in *.
      pose proof (te_of_tree_ok arc t h (nodes_of s) e I Ds) as T. unfold okt in T.
      destruct (te_of_tree vcl h t e) as [[[h1 n] e1]|[h1 e1]|]; [| |easy].
      + rewrite T in Q9 |- *. destruct (rput k n s) as [s1|]; [|discriminate]. exists (h1, s1), e1, true. injection Q9 as <-. auto.
      + destruct T as (I1 & P1). exists (h1, s), e1, false. split; [reflexivity|]. exists vs. split; [reflexivity|]. split; [exact I1|].
        split; [apply P1; [now left|exact Ds]|]. eapply rel_pres; [|exact R]. eapply pres_incl; [|exact P1]. intros y Hy. now right.
    - cbn [te_step hstep vstep vpanic may_panic] in *. destruct (rget i vs) as [t|] eqn:Q; [|discriminate].
      destruct (rget_rel h s vs i t R Q) as (n & Qn & D & Hn). rewrite Qn in *.
      assert (Pn : present h (@static K V :: nodes_of s) n) by (left; now right).
      pose proof (te_node_clone_ok h n e _ I Pn) as T. unfold okt in T.
      destruct (te_node_clone vcl h n e) as [[[h1 n'] e1]|[h1 e1]|]; [| |easy].
      + rewrite T in Q9 |- *. destruct (rput k n' s) as [s1|]; [|discriminate]. exists (h1, s1), e1, true. injection Q9 as <-. auto.
      + subst h1. exists (h, s), e1, false. split; [reflexivity|]. exists vs. split; [reflexivity|]. now split; [|split].
    - cbn [te_step hstep vstep vpanic may_panic] in *.
      destruct (rget i vs) as [t|] eqn:Q; [|discriminate]. destruct (t_sub path t) as [u|] eqn:Hp; [|discriminate]. injection H as <-.
      assert (Q1 : rtake i vs = Some (t, upd_nth i None vs)) by (unfold rtake; now rewrite Q).
      destruct (rtake_rel h s vs i t _ R Q1) as (n & s1 & Qs & D & R1 & P1). rewrite Qs in *.
      assert (I' : Inv h (n :: @static K V :: nodes_of s1)) by (eapply inv_perm; [|exact I]; rewrite P1; apply perm_swap).
      pose proof (te_touch_ok path h _ n t u e I' D Hp) as T. unfold okt in T.
      destruct (te_touch vcl path h n e) as [[[[h1 n1] b] e1]|[[h1 n1] e1]|]; [| |easy].
      + rewrite T in Q9 |- *. destruct (rput i n1 s1) as [s2|]; [|discriminate]. exists (h1, s2), e1, true. injection Q9 as <-. auto.
      + destruct T as (I1 & D1 & P). assert (R2 : rel h1 s1 (upd_nth i None vs)) by (eapply rel_pres; [|exact R1]; eapply pres_incl; [|exact P]; intros y Hy; now right).
        destruct (rput_rel h1 s1 _ i n1 t vs R2 D1 (take_put i t vs Q)) as (s2 & -> & R3 & P2).
        exists (h1, s2), e1, false. split; [reflexivity|]. exists vs. split; [reflexivity|].
        split; [|split; [apply P; [now left|exact Ds]|exact R3]]. eapply inv_perm; [|exact I1]. cbn [snd]. rewrite P2. apply perm_swap.
    - cbn [te_step hstep vstep vpanic may_panic] in *.
      destruct (rget i vs) as [t|] eqn:Q; [|discriminate]. destruct (t_sub path t) as [u|] eqn:Hp; [|discriminate].
      destruct (nth_error (t_children u) c) as [tc|] eqn:Hk; [|discriminate].
      assert (Q1 : rtake i vs = Some (t, upd_nth i None vs)) by (unfold rtake; now rewrite Q).
      destruct (rtake_rel h s vs i t _ R Q1) as (n & s1 & Qs & D & R1 & P1). rewrite Qs in *.
      assert (I' : Inv h (n :: @static K V :: nodes_of s1)) by (eapply inv_perm; [|exact I]; rewrite P1; apply perm_swap).
      assert (Back : forall h1 n1, Inv h1 (n1 :: @static K V :: nodes_of s1) -> den h1 n1 t -> pres h h1 (@static K V :: nodes_of s1) ->
        exists s2, rput i n1 s1 = Some s2 /\ good (h1, s2) vs).
      { intros h1 n1 I1 D1 P. assert (R2 : rel h1 s1 (upd_nth i None vs)) by (eapply rel_pres; [|exact R1]; eapply pres_incl; [|exact P]; intros y Hy; now right).
        destruct (rput_rel h1 s1 _ i n1 t vs R2 D1 (take_put i t vs Q)) as (s2 & -> & R3 & P2). exists s2. split; [reflexivity|].
        split; [|split; [apply P; [now left|exact Ds]|exact R3]]. eapply inv_perm; [|exact I1]. cbn [snd]. rewrite P2. apply perm_swap. }
      pose proof (te_touch_ok path h _ n t u e I' D Hp) as T. unfold okt in T.
      destruct (touch_inv path h (@static K V :: nodes_of s1) n t u I' D Hp) as (h1' & n1' & b' & rb & nb & Qt & I1 & D1 & P & Hb & Db).
      destruct (te_touch vcl path h n e) as [[[[h1 n1] b] e1]|[[h1 n1] e1]|]; [| |easy].
      + rewrite Qt in T. injection T as -> -> ->. rewrite Qt in Q9 |- *. destruct (Back h1 n1 I1 D1 P) as (s2 & Q2 & G2). rewrite Q2, Hb in *.
        destruct (nth_error nb c) as [cn|] eqn:Hn; [|discriminate].
        assert (Pn : present h1 (@static K V :: nodes_of s2) cn) by (right; exists b, rb, nb; split; [exact Hb|]; eapply nth_error_In; exact Hn).
        pose proof (te_node_clone_ok h1 cn e1 _ (proj1 G2) Pn) as T. unfold okt in T.
        destruct (te_node_clone vcl h1 cn e1) as [[[h2 c'] e2]|[h2 e2]|]; [| |easy].
        * rewrite T in Q9 |- *. destruct (rput k c' s2) as [s3|]; [|discriminate]. exists (h2, s3), e2, true. injection Q9 as <-. auto.
        * subst h2. exists (h1, s2), e2, false. split; [reflexivity|]. exists vs. auto.
      + destruct T as (I2 & D2 & P2). destruct (Back h1 n1 I2 D2 P2) as (s2 & -> & G2).
        exists (h1, s2), e1, false. split; [reflexivity|]. exists vs. auto.
    - cbn [te_step hstep vstep vpanic may_panic] in *. destruct (vreg i (tmut path (t_set_prefix p)) vs) as [[v1 x]|] eqn:Q; [|discriminate].
      pose proof (te_in_reg_ok i _ _ _ [] [] h s vs v1 x e (mut_at_ok _ _ _ _ path (act_prefix_ok p))
        (te_mut_at_ok _ _ _ _ _ path (act_prefix_ok p) (te_act_prefix_ok p)) I Ds (dens_nil _) R Q) as T.
      destruct (te_in_reg i _ h s e) as [[[[h1 s1] o] e1]|[[h1 s1] e1]|]; [| |easy].
      + rewrite T in Q9 |- *. exists (h1, s1), e1, true. injection Q9 as <-. auto.
      + destruct T as (I1 & D1 & _ & R1). exists (h1, s1), e1, false. split; [reflexivity|]. exists vs. split; [reflexivity|]. now split; [|split].
    - cbn [te_step hstep vstep vpanic may_panic] in *. destruct (vreg i (tmut path (t_set_value v)) vs) as [[v1 x]|] eqn:Q; [|discriminate].
      pose proof (te_in_reg_ok i _ _ _ [] [] h s vs v1 x e (mut_at_ok _ _ _ _ path (act_value_ok v))
        (te_mut_at_ok _ _ _ _ _ path (act_value_ok v) (te_act_value_ok v)) I Ds (dens_nil _) R Q) as T.
      destruct (te_in_reg i _ h s e) as [[[[h1 s1] o] e1]|[[h1 s1] e1]|]; [| |easy].
      + rewrite T in Q9 |- *. exists (h1, s1), e1, true. injection Q9 as <-. auto.
      + destruct T as (I1 & D1 & _ & R1). exists (h1, s1), e1, false. split; [reflexivity|]. exists vs. split; [reflexivity|]. now split; [|split].
    - cbn [te_step hstep vstep vpanic may_panic] in *. destruct (rtake src vs) as [[m v0]|] eqn:Q0; [|discriminate].
      destruct (rtake_rel h s vs src m v0 R Q0) as (n & s0 & Qs & D & R0 & P0). rewrite Qs in *.
      destruct (vreg i (tmut path (t_insert pos m)) v0) as [[v1 x]|] eqn:Q; [|discriminate].
      assert (I0 : Inv h (@static K V :: [n] ++ nodes_of s0)) by (eapply inv_perm; [|exact I]; now rewrite P0).
      assert (Dn : dens h [n] [m]) by (constructor; [exact D|constructor]).
      pose proof (te_in_reg_ok i _ _ _ [n] [m] h s0 v0 v1 x e (mut_at_ok _ _ _ _ path (act_insert_ok pos n m))
        (te_mut_at_ok _ _ _ _ _ path (act_insert_ok pos n m) (te_act_insert_ok pos n m)) I0 Ds Dn R0 Q) as T.
      destruct (te_in_reg i _ h s0 e) as [[[[h1 s1] o] e1]|[[h1 s1] e1]|]; [| |easy].
      + rewrite T in Q9 |- *. exists (h1, s1), e1, true. injection Q9 as <-. auto.
      + destruct T as (I1 & D1 & _ & R1).
        destruct (drop_pres h1 [n] (@static K V :: nodes_of s1)) as (h2 & -> & I2 & P2 & _); [eapply inv_perm; [|exact I1]; apply perm_swap|].
        exists (h2, s1), e1, false. split; [reflexivity|]. exists v0. split; [reflexivity|]. split; [exact I2|].
        split; [apply P2; [now left|exact D1]|]. eapply rel_pres; [|exact R1]. eapply pres_incl; [|exact P2]. intros y Hy. now right.
    - cbn [te_step hstep vstep vpanic may_panic] in *. destruct (vreg i (tmut path (t_remove pos)) vs) as [[v1 x]|] eqn:Q; [|discriminate].
      pose proof (te_in_reg_ok i _ _ _ [] [] h s vs v1 x e (mut_at_ok _ _ _ _ path (act_remove_ok pos))
        (te_mut_at_ok _ _ _ _ _ path (act_remove_ok pos) (te_act_remove_ok pos)) I Ds (dens_nil _) R Q) as T.
      destruct (te_in_reg i _ h s e) as [[[[h1 s1] [m|]] e1]|[[h1 s1] e1]|]; [| | |easy].
      + rewrite T in Q9 |- *. destruct (rput k m s1) as [s2|]; [|discriminate]. exists (h1, s2), e1, true. injection Q9 as <-. auto.
      + rewrite T in Q9. discriminate.
      + destruct T as (I1 & D1 & _ & R1). exists (h1, s1), e1, false. split; [reflexivity|]. exists vs. split; [reflexivity|]. now split; [|split].
  Qed.

  Lemma te_run_good (arc : bool) (q : tprog K V) : forall st vs e, good st vs -> meaningful q vs ->
    exists st' e' oks vs', te_run vcl arc q st e = Some (st', e', oks) /\ vruns q oks vs = Some vs' /\ good st' vs'.
  Proof.
    induction q as [|o q1 IH1 q2 IH2]; intros st vs e G M; cbn [te_run vruns meaningful] in *.
    - exists st, e, [], vs. auto.
    - destruct M as ((s1 & Hs & M1) & M2). destruct (te_step_good arc o st vs s1 e G Hs) as (st1 & e1 & ok & -> & F). destruct ok.
      + destruct F as [_ G1]. destruct (IH1 st1 s1 e1 G1 M1) as (st2 & e2 & oks & vs2 & -> & V2 & G2).
        exists st2, e2, (true :: oks), vs2. rewrite Hs. auto.
      + destruct F as (s2 & Hp & G1). destruct (IH2 st1 s2 e1 G1 (M2 s2 Hp)) as (st2 & e2 & oks & vs2 & -> & V2 & G2).
        exists st2, e2, (false :: oks), vs2. rewrite Hp. auto.
  Qed.
End ThrowFacts.

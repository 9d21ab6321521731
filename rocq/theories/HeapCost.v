(** How many vectors an in-place operation on shared nodes allocates. *)
From Coq Require Import Permutation.
From Verif Require Export HeapApiRefine HeapAlloc.

Section HeapCost.
  Context {K V : Type} (kcmp : K -> K -> comparison) (strat : nat -> nat -> bool).
  Notation arc := true.
  Notation tree := (rtree K V).
  Notation node := (node K V).
  Notation heap := (heap K V).
  Implicit Types (h : heap) (ns C : list node) (ts : list tree).

  (** non-empty prefixes below the root *)
  Inductive NE : tree -> Prop := ne_node p v c : Forall (fun x => t_prefix x <> [] /\ NE x) c -> NE (Node p v c).
  Lemma wf_NE q (t : tree) : wf kcmp q t -> NE t.
  Proof.
    induction t as [p v c IH] using rtree_ind'. intros (Hp & _ & _ & Hc). constructor.
    induction IH as [|x c Hx _ IHc]; constructor.
    - inversion Hp; subst. cbn [fold_right] in Hc. split; [auto|]. apply Hx. apply Hc.
    - apply IHc; [now inversion Hp|]. cbn [fold_right] in Hc. apply Hc.
  Qed.
  Lemma NE_kids (t : tree) : NE t -> Forall (fun x => t_prefix x <> [] /\ NE x) (t_children t).
  Proof. intros H. now inversion H. Qed.
  Lemma NE_split (t : tree) k t' : t_split t k = Ok t' -> NE t -> NE t'.
  Proof.
    destruct t as [p v c]. unfold t_split. destruct (k <? length p) eqn:Q; [|discriminate]. intros [= <-] H. apply Nat.ltb_lt in Q.
    constructor. constructor; [|constructor]. cbn [t_prefix]. split.
    - intros E. apply (f_equal (@length K)) in E. rewrite skipn_length in E. cbn in E. lia.
    - constructor. now inversion H.
  Qed.
  Lemma NE_prefix p q v w c : NE (Node p v c : tree) -> NE (Node q w c).
  Proof. intros H. inversion H; subst. now constructor. Qed.

  (** the temporary is that subtree with a shorter prefix *)
  Lemma mat_short_id (t : tree) : forall n t', mat_short t n = Ok t' -> t' = Node (skipn n (t_prefix t)) (t_value t) (t_children t).
  Proof.
    induction t as [p v c IH] using rtree_ind'. intros n t'. rewrite mat_short_eq. cbn [t_prefix t_value t_children].
    destruct (n <? length p); [|discriminate].
    assert (G : forall l, mat_all c = Ok l -> l = c).
    { induction IH as [|x c Hx _ IHc]; intros l; cbn [mat_all]; [now intros [= <-]|].
      destruct (mat_short x 0) as [x'| |] eqn:Q; try discriminate. cbn [rbind]. destruct (mat_all c) as [l'| |] eqn:Q2; try discriminate.
      cbn [rbind]. intros [= <-]. rewrite (Hx _ _ Q), (IHc l' eq_refl). f_equal. destruct x; reflexivity. }
    destruct (mat_all c) as [l| |] eqn:Q; try discriminate. cbn [rbind]. intros [= <-]. now rewrite (G l).
  Qed.
  Lemma sum_le {X} (f g : X -> nat) l : (forall x, In x l -> f x <= g x) -> list_sum (map f l) <= list_sum (map g l).
  Proof. induction l as [|x l IH]; intros H; cbn; auto. specialize (IH ltac:(intros; apply H; now right)). specialize (H x ltac:(now left)). unfold list_sum in *. lia. Qed.
  Lemma copies_unfold p v (c : list tree) : copies (Node p v c) = S (vectors (Node p v c)) * length p + S (list_sum (map copies c)).
  Proof. reflexivity. Qed.
  Lemma vectors_unfold p v (c : list tree) : vectors (Node p v c) = match c with [] => 0 | _ => 1 end + list_sum (map vectors c).
  Proof. reflexivity. Qed.
  Lemma copies_size (t : tree) : vectors t <= copies t.
  Proof.
    induction t as [p v c IH] using rtree_ind'. rewrite copies_unfold, vectors_unfold.
    pose proof (sum_le vectors copies c (proj1 (Forall_forall _ _) IH)). destruct c; lia.
  Qed.
  Lemma copies_short (t : tree) n t' : mat_short t n = Ok t' -> 0 < n -> S (vectors t) + copies t' <= copies t.
  Proof.
    intros Q Hn. rewrite (mat_short_id _ _ _ Q). rewrite mat_short_eq in Q. destruct t as [p v c]. cbn [t_prefix t_value t_children] in *.
    destruct (n <? length p) eqn:Ql; [|discriminate]. apply Nat.ltb_lt in Ql. rewrite !copies_unfold, skipn_length.
    change (vectors (Node (skipn n p) v c)) with (vectors (Node p v c)).
    set (s := vectors (Node p v c)). replace (length p) with (n + (length p - n)) at 2 by lia. rewrite Nat.mul_add_distr_l.
    destruct n; [lia|]. nia.
  Qed.

  (** ** Costs of the pieces *)
  Definition costs {X} h (r : option (heap * X)) (N : nat) : Prop := forall h' x, r = Some (h', x) -> h_next h' <= h_next h + N.
  Definition uniq h (n : node) : Prop := exists a ns, n_kids n = inr a /\ h_cell h a = Some (1, ns).

  Lemma next_clones ns : forall h h' ms, nodes_clone h ns = Some (h', ms) -> h_next h' = h_next h.
  Proof.
    induction ns as [|n ns IH]; intros h h' ms; cbn [nodes_clone]; [now intros [= <- <-]|].
    destruct (node_clone h n) as [[h1 n1]|] eqn:Q1; [|discriminate]. destruct (nodes_clone h1 ns) as [[h2 l]|] eqn:Q2; [|discriminate].
    intros [= <- <-]. rewrite (IH _ _ _ Q2). unfold node_clone, arc_clone in Q1. destruct (n_kids n) as [ts|a]; [now injection Q1 as <- _|].
    destruct (h_cell h a) as [[rc ks]|]; [|discriminate]. now injection Q1 as <- _.
  Qed.
  Lemma next_make_mut h a h' a' : make_mut h a = Some (h', a') ->
    h_next h' <= S (h_next h) /\ (forall ns, h_cell h a = Some (1, ns) -> h' = h /\ a' = a).
  Proof.
    unfold make_mut. destruct (h_cell h a) as [[[|[|rc]] ns]|] eqn:Q; try discriminate.
    - intros [= <- <-]. split; [lia|]. auto.
    - destruct (nodes_clone h ns) as [[h1 ms]|] eqn:Q1; [|discriminate]. cbn [arc_new].
      match goal with |- context [h_cell ?g a] => destruct (h_cell g a) as [[[|[|r]] ks]|]; try discriminate end.
      intros [= <- <-]. cbn [h_upd h_next]. rewrite (next_clones _ _ _ _ Q1). split; [lia|]. intros ks'. discriminate.
  Qed.
  Lemma next_children_mut h n h' n' a : children_mut h n = Some (h', n', a) -> h_next h' <= S (h_next h) /\ n_kids n' = inr a /\ (uniq h n -> h' = h).
  Proof.
    unfold children_mut, force, uniq. destruct (n_kids n) as [ts|b]; cbn [arc_new].
    - match goal with |- context [make_mut ?g ?x] => destruct (make_mut g x) as [[h2 b']|] eqn:Q end; [|discriminate]. intros [= <- <- <-].
      apply next_make_mut in Q as [_ Q]. destruct (Q (map shallow ts)) as [-> _].
      { cbn [h_cell]. now rewrite Nat.eqb_refl. }
      cbn [h_next with_arc n_kids]. split; [lia|]. split; auto. intros (? & ? & ? & _). discriminate.
    - destruct (make_mut h b) as [[h2 b']|] eqn:Q; [|discriminate]. intros [= <- <- <-]. apply next_make_mut in Q as [Q1 Q2]. split; auto. split; auto.
      intros (b0 & ns & [= <-] & Hb). destruct (Q2 ns Hb). auto.
  Qed.
  Lemma next_drop_loop fuel : forall h work h', drop_loop fuel h work = Some h' ->
    h_next h' = h_next h /\ forall a ns, h_cell h a = Some (1, ns) -> h_cell h' a = None \/ h_cell h' a = Some (1, ns).
  Proof.
    induction fuel as [|fuel IH]; intros h work h'; [discriminate|]. cbn [drop_loop].
    destruct work as [|n work]; [intros [= <-]; auto|]. destruct (n_kids n) as [ts|b]; [apply IH|].
    assert (Gone : forall fuel h work h' a, drop_loop fuel h work = Some h' -> h_cell h a = None -> h_cell h' a = None).
    { clear. induction fuel as [|fuel IH]; intros h work h' a; [discriminate|]. cbn [drop_loop].
      destruct work as [|n work]; [now intros [= <-]|]. destruct (n_kids n) as [ts|b]; [apply IH|].
      destruct (h_cell h b) as [[[|[|r]] ns]|] eqn:Q; try discriminate; intros H N; (eapply IH; [exact H|]); rewrite upd_other; auto; congruence. }
    destruct (h_cell h b) as [[[|[|r]] ns]|] eqn:Q; try discriminate; intros H.
    - destruct (IH _ _ _ H) as [E R]. split; [exact E|]. intros a ms Ha. destruct (Nat.eq_dec a b) as [->|Nb].
      + left. eapply Gone; [exact H|]. apply upd_same.
      + apply R. now rewrite upd_other.
    - destruct (IH _ _ _ H) as [E R]. split; [exact E|]. intros a ms Ha. apply R. rewrite upd_other; auto. intros ->. congruence.
  Qed.
  Lemma next_drop h work h' : drop_all h work = Some h' -> h_next h' = h_next h.
  Proof. intros H. eapply next_drop_loop; eauto. Qed.
  Lemma next_wrap h ns h' a : wrap arc h ns = Some (h', a) -> h_next h' <= match ns with [] => 0 | _ => 1 end + h_next h.
  Proof.
    unfold wrap. destruct ns; cbn [arc_new]; [|intros [= <- <-]; cbn; lia].
    unfold arc_clone. destruct (h_cell h 0) as [[rc ks]|]; [|discriminate]. intros [= <- <-]. cbn. lia.
  Qed.
  Lemma costs_new p v ns h : costs h (n_new arc p v ns h) (match ns with [] => 0 | _ => 1 end).
  Proof. intros h' x. unfold n_new. destruct (wrap arc h ns) as [[h1 a]|] eqn:Q; [|discriminate]. intros [= <- <-]. apply next_wrap in Q. lia. Qed.

  (** a function on a vector that allocates nothing *)
  Definition still (f : heap -> list node -> option (heap * list node)) : Prop := forall h ns h' ns', f h ns = Some (h', ns') -> h_next h' = h_next h.
  Lemma still_push c : still (vec_push c).
  Proof. intros h ns h' ns' [= <- <-]. auto. Qed.
  Lemma still_clear : still vec_clear.
  Proof. intros h ns h' ns'. unfold vec_clear. destruct (drop_all h ns) eqn:Q; [|discriminate]. intros [= <- <-]. eapply next_drop; eauto. Qed.
  Lemma still_sort : still (vec_sort kcmp).
  Proof. intros h ns h' ns'. unfold vec_sort. destruct (_ || _); [|discriminate]. now intros [= <- <-]. Qed.
  Lemma still_retain : still vec_retain.
  Proof.
    intros h ns. revert h. induction ns as [|x ns IH]; intros h h' ns'; cbn [vec_retain]; [now intros [= <- <-]|].
    destruct (n_is_empty h x) as [[]|]; [| |discriminate].
    - destruct (drop_all h [x]) as [h1|] eqn:Q; [|discriminate]. intros H. rewrite (IH _ _ _ H). eapply next_drop; eauto.
    - destruct (vec_retain h ns) as [[h1 l]|] eqn:Q; [|discriminate]. intros [= <- <-]. eapply IH; eauto.
  Qed.

  (** [f] allocates at most N vectors; the copy of the vector itself costs one unless it is not shared *)
  Definition frugal h (r : option (heap * node)) (N : nat) : Prop := forall h' n, r = Some (h', n) -> uniq h' n /\ h_next h' <= h_next h + N.
  Lemma wc_cost f inp N h C n p v ts : Inv h (n :: inp ++ C) -> den h n (Node p v ts) ->
    (forall h1 ns, Inv h1 (ns ++ inp ++ C) -> dens h1 ns ts -> frame h h1 (inp ++ C) -> mono h h1 -> costs h1 (f h1 ns) N) ->
    frugal h (with_children f h n) (S N) /\ (uniq h n -> frugal h (with_children f h n) N).
  Proof.
    intros I D F. unfold frugal, with_children. destruct (children_mut_frame h _ n p v ts I D) as (h1 & a & ns & Q & I1 & Ha & Dn & F1 & M1). rewrite Q, Ha.
    destruct (next_children_mut _ _ _ _ _ Q) as (N1 & Qk & U).
    destruct (borrow_inv _ _ _ _ _ _ I1 Ha) as (I2 & P2 & Hlt). pose proof (frame_borrow _ _ _ _ _ _ None I1 Ha) as F2.
    assert (F2' : frame h1 (h_upd h1 a None) (inp ++ C)) by (eapply frame_incl; [|exact F2]; intros m Hm; apply in_or_app; now right).
    assert (M2 : mono h1 (h_upd h1 a None)) by (eapply mono_upd; eauto).
    assert (G : costs (h_upd h1 a None) (f (h_upd h1 a None) ns) N).
    { apply F; auto.
      - eapply pres_dens; [|exact P2|exact Dn]. intros m Hm. apply in_or_app. now left.
      - eapply frame_trans; eauto.
      - eapply mono_trans; eauto. }
    destruct (f (h_upd h1 a None) ns) as [[h3 ns']|]; [|split; [|intros _]; discriminate]. specialize (G h3 ns' eq_refl). cbn [h_upd h_next] in G.
    split; [|intros Hu; specialize (U Hu); subst h1]; intros h' x [= <- <-]; (split; [exists a, ns'; split; [reflexivity|apply upd_same]|cbn [h_upd h_next] in *; lia]).
  Qed.
  Lemma wc_still f h n C t : still f -> Inv h (n :: C) -> den h n t ->
    frugal h (with_children f h n) 1 /\ (uniq h n -> frugal h (with_children f h n) 0).
  Proof.
    intros S I D. destruct t as [p v ts]. apply (wc_cost f [] 0 h C n p v ts); auto. intros h1 ns _ _ _ _ h' x Q. rewrite (S _ _ _ _ Q). lia.
  Qed.

  Lemma split_cost h C n t k t' : Inv h (n :: C) -> St h C -> den h n t -> t_split t k = Ok t' -> frugal h (h_split arc h n k) 1.
  Proof.
    intros I S D. destruct t as [p v c]. unfold t_split, h_split. rewrite (den_prefix _ _ _ D). cbn [t_prefix].
    destruct (k <? length p); [|discriminate]. intros [= <-].
    destruct (n_new_ok arc (firstn k p) None [] [] h (n :: C)) as (h1 & s & Q & I1 & D1 & X1 & M1); auto; [eapply St_incl; [|exact S]; intros y Hy; now right|constructor|].
    rewrite Q. pose proof (proj1 (den_ext _ _ X1) _ _ D) as D'.
    destruct (n_set_prefix_ok h1 (s :: C) n p (skipn k p) v c) as [I2 D2]; auto.
    { eapply inv_perm; [apply perm_swap|exact I1]. }
    assert (I3 : Inv h1 (s :: n_set_prefix (skipn k p) n :: C)) by (eapply inv_perm; [apply perm_swap|exact I2]).
    destruct (wc_still _ h1 s _ _ (still_push (n_set_prefix (skipn k p) n)) I3 D1) as [A B].
    unfold n_new, wrap, arc_clone in Q. destruct (h_cell h 0) as [[rc ks]|]; [|discriminate]. injection Q as <- <-. intros h' x H. apply A in H. exact H.
  Qed.

  Lemma collapse_cost h n : uniq h n -> costs h (h_collapse h n) 0.
  Proof.
    intros U h' x. unfold h_collapse. destruct (children_mut h n) as [[[h1 n1] a]|] eqn:Q; [|discriminate].
    destruct (next_children_mut _ _ _ _ _ Q) as (_ & _ & E). rewrite (E U).
    destruct (h_cell h a) as [[rc ns]|]; [|discriminate]. destruct (rev ns) as [|c r]; [discriminate|].
    destruct (h_prepend _ c _) as [c'|]; [|discriminate].
    match goal with |- context [drop_all ?g ?w] => destruct (drop_all g w) as [h3|] eqn:Qd end; [|discriminate]. intros [= <- <-].
    apply next_drop in Qd. cbn [h_upd h_next] in Qd. lia.
  Qed.
  Lemma unsplit_cost h C n t : Inv h (n :: C) -> den h n t -> costs h (h_unsplit h n) 1 /\ (uniq h n -> costs h (h_unsplit h n) 0).
  Proof.
    intros I D. destruct (wc_still _ h n C t still_retain I D) as [A B].
    assert (G : forall N, frugal h (with_children vec_retain h n) N -> costs h (h_unsplit h n) N).
    { intros N H h' x. unfold h_unsplit. destruct (with_children vec_retain h n) as [[h1 n1]|]; [|discriminate]. destruct (H h1 n1 eq_refl) as [U L].
      destruct (kids_of h1 n1) as [ks|]; [|discriminate].
      assert (Y : costs h1 (match n_value n1, ks with None, [_] => h_collapse h1 n1 | _, _ => Some (h1, n1) end) 0).
      { pose proof (collapse_cost h1 n1 U) as Hc. assert (Same : costs h1 (Some (h1, n1)) 0) by (intros g y [= <- <-]; lia).
        destruct (n_value n1), ks as [|? [|? ?]]; auto. }
      destruct (match n_value n1, ks with None, [_] => h_collapse h1 n1 | _, _ => Some (h1, n1) end) as [[h2 n2]|]; [|discriminate].
      specialize (Y h2 n2 eq_refl). destruct (n_is_empty h2 n2) as [[]|]; [| |discriminate]; intros [= <- <-]; lia. }
    split; [now apply G|]. intros U. now apply G, B.
  Qed.

  (** ** Deep copies *)
  Lemma mat_cost fuel : forall h C m u k u', Inv h C -> St h C -> within h C m -> den h m u -> t_size u <= fuel -> mat_short u k = Ok u' ->
    costs h (h_mat arc fuel h m k) (vectors u).
  Proof.
    induction fuel as [|fuel IH]; intros h C m u k u' I S W D Hs H; [pose proof (size_pos u); lia|].
    cbn [h_mat]. destruct u as [p v c]. rewrite mat_short_eq in H. cbn [t_prefix t_value t_children] in H.
    destruct (kids_of_ok _ _ _ _ _ D) as (Qp & Qv & ns & Qk & Dn). rewrite Qp, Qv, Qk.
    destruct (k <? length p); [|discriminate]. destruct (mat_all c) as [c'| |] eqn:Qc; try discriminate. injection H as <-.
    match goal with |- context [match ?g h ns with _ => _ end] => set (go := g) end.
    assert (G : forall ns c c', mat_all c = Ok c' -> (forall x, In x c -> t_size x <= fuel) -> forall h C, Inv h C -> St h C ->
      (forall m, In m ns -> within h C m) -> dens h ns c -> costs h (go h ns) (list_sum (map vectors c))).
    { clear -IH. induction ns as [|x ns IHl]; intros c c' Q Hc h C I S W D; inversion D; subst; cbn [mat_all] in Q.
      - intros h' y. unfold go; cbn. intros [= <- <-]. lia.
      - destruct (mat_short t 0) as [x'| |] eqn:Q1; try discriminate. cbn [rbind] in Q. destruct (mat_all ts) as [l'| |] eqn:Q2; try discriminate.
        injection Q as <-. unfold go; cbn; fold go.
        pose proof (IH h C x t 0 x' I S ltac:(apply W; now left) ltac:(auto) ltac:(apply Hc; now left) Q1) as Co.
        destruct (h_mat_ok arc fuel h C x t 0 x') as (h1 & n1 & Qm & I1 & D1 & F1 & M1); auto; [apply W; now left|apply Hc; now left|]. rewrite Qm in *.
        specialize (Co h1 n1 eq_refl).
        assert (Co2 : costs h1 (go h1 ns) (list_sum (map vectors ts))).
        { apply (IHl ts l' Q2 ltac:(intros; apply Hc; now right) h1 (n1 :: C) I1).
          + eapply St_incl; [|eapply St_frame; eauto]. intros y Hy. now right.
          + intros y Hy. eapply within_incl; [|eapply frame_within; eauto; apply W; now right]. intros z Hz. now right.
          + eapply (frame_den _ _ C F1); auto. intros y Hy. apply W. now right. }
        intros h' y. destruct (go h1 ns) as [[h2 l2]|]; [|discriminate]. specialize (Co2 h2 l2 eq_refl). intros [= <- <-].
        fold (list_sum (map vectors ts)). lia. }
    assert (Gk : costs h (go h ns) (list_sum (map vectors c))).
    { apply (G ns c c' Qc) with (C := C); auto.
      - intros x Hx. pose proof (size_children (Node p v c) x Hx). lia.
      - eapply kids_within; eauto. }
    assert (Gl : forall h1 l, go h ns = Some (h1, l) -> ns = [] -> l = []) by (intros h1 l Q ->; cbn in Q; now injection Q as _ <-).
    intros h' x. destruct (go h ns) as [[h1 l]|]; [|discriminate]. specialize (Gk h1 l eq_refl). specialize (Gl h1 l eq_refl). intros Q.
    pose proof (costs_new _ _ _ _ _ _ Q) as Hn. rewrite vectors_unfold. inversion Dn; subst; [rewrite (Gl eq_refl) in Hn|destruct l]; lia.
  Qed.

  (** ** In-place merges *)
  Section InPlaceCost.
    Context (rec1 : tree -> tree -> res tree) (rec2 : heap -> node -> node -> option (heap * node)) (fuel na nb : nat) (conv : bool).
    Hypothesis Hrec : forall h C av bv x y x', Inv h (av :: C) -> St h C -> den h av x -> within h C bv -> den h bv y ->
      t_size x <= na -> t_size y <= nb -> rec1 x y = Ok x' -> yield1 h C (rec2 h av bv) x'.
    Hypothesis Hcost : forall h C av bv x y x', Inv h (av :: C) -> St h C -> den h av x -> within h C bv -> den h bv y ->
      t_size x <= na -> t_size y <= nb -> t_prefix x <> [] -> NE x -> rec1 x y = Ok x' -> costs h (rec2 h av bv) (copies y).
    Hypothesis Hfuel : nb <= fuel.
    Context (h0 : heap) (C : list node) (B : nat).
    Hypothesis S0 : St h0 C.
    Notation mrel := (mrel na nb h0 C).
    Definition owed (l : list tree) : nat := list_sum (map copies l).
    Definition crel (s1 : iprstate tree tree) (s2 : @hst K V) : Prop :=
      mrel s1 s2 /\ Forall (fun x => t_prefix x <> [] /\ NE x) (bd_src (ipr_a s1)) /\ h_next (hs_h s2) + owed (ipr_b s1) <= B.

    Lemma Forall_skipn {X} (P : X -> Prop) n l : Forall P l -> Forall P (skipn n l).
    Proof. intros H. rewrite <- (firstn_skipn n l) in H. now apply Forall_app in H. Qed.
    Lemma owed_skipn n l : owed (skipn n l) <= owed l.
    Proof.
      unfold owed. rewrite <- (firstn_skipn n l) at 2. rewrite map_app. induction (map copies (firstn n l)) as [|x r IH]; cbn [app]; [lia|].
      cbn [list_sum fold_right] in *. unfold list_sum in *. lia.
    Qed.
    Lemma crel_adv_a s1 s2 n take : crel s1 s2 -> osim crel (adv_a (ipr_msm (conv1 conv)) s1 n take) (hs_adv_a s2 n take).
    Proof.
      intros (R & Hs & Hb). pose proof (mrel_adv_a na nb conv h0 C s1 s2 n take R) as Sim.
      cbn [ipr_msm adv_a] in *. unfold ipr_adv_a in *. cbn [osim] in *. destruct Sim as (s2' & Q & R'). exists s2'. split; auto. split; auto.
      destruct s1 as [[t a d] b]. unfold bd_consume. cbn [ipr_a ipr_b bd_src] in *. split.
      - destruct take; cbn [bd_src]; now apply Forall_skipn.
      - unfold hs_adv_a in Q. destruct take; [injection Q as <-; cbn [hs_h]; auto|].
        destruct (drop_all (hs_h s2) (firstn n (hs_src s2))) as [h'|] eqn:Qd; [|discriminate]. injection Q as <-. cbn [hs_h]. rewrite (next_drop _ _ _ Qd). auto.
    Qed.
    Lemma extend_cost n : forall s1 s2, mrel s1 s2 -> forall bd b s2', bd_extend (conv1 conv) n (ipr_a s1) (ipr_b s1) = (bd, b, true) ->
      hs_extend arc fuel conv n s2 = Cont s2' -> bd_src bd = bd_src (ipr_a s1) /\ h_next (hs_h s2') + owed b <= h_next (hs_h s2) + owed (ipr_b s1).
    Proof.
      induction n as [|n IH]; intros s1 s2 R bd b s2' H Q.
      - cbn [bd_extend hs_extend] in *. injection H as <- <-. injection Q as <-. auto.
      - pose proof R as (I & Dt & Ds & Db & W & F & M & Za & Zb). destruct s1 as [[t a d] bs1], s2 as [h tgt src bs].
        cbn [hs_h hs_tgt hs_src hs_b ipr_a ipr_b bd_tgt bd_src] in *. cbn [bd_extend hs_extend hs_h hs_tgt hs_src hs_b] in *.
        destruct bs1 as [|y1 bs1]; inversion Db as [|y2 ? bs2 ? Dy Dbs]; subst.
        + injection H as <- <-. injection Q as <-. auto.
        + unfold conv1 in H at 1. destruct conv eqn:Ec; [|discriminate]. destruct (mat_conv y1) as [y1'|] eqn:Qy; [|discriminate].
          unfold mat_conv in Qy. destruct (mat_short y1 0) as [y1''| |] eqn:Qm; try discriminate. injection Qy as ->.
          assert (St1 : St h (tgt ++ src ++ C)) by (eapply St_incl; [|eapply St_frame; eauto]; rewrite app_assoc; apply incl_r).
          assert (Wy : within h (tgt ++ src ++ C) y2) by (eapply within_incl; [|apply W; now left]; rewrite app_assoc; apply incl_r).
          assert (Hz : t_size y1 <= fuel) by (specialize (Zb y1 ltac:(now left)); lia).
          pose proof (mat_cost fuel h (tgt ++ src ++ C) y2 y1 0 y1' I St1 Wy Dy Hz Qm) as Co.
          destruct (h_mat_ok arc fuel h (tgt ++ src ++ C) y2 y1 0 y1') as (h1 & x & Qh & I1 & D1 & F1 & M1); auto.
          rewrite Qh in *. specialize (Co h1 x eq_refl).
          assert (FC : frame h h1 C) by (eapply frame_incl; [|exact F1]; rewrite app_assoc; apply incl_r).
          assert (R' : mrel (MkIpr (bd_push (MkB t a d) y1') bs1) (MkHst h1 (tgt ++ [x]) src bs2)).
          { unfold HeapOpsFacts.mrel. cbn [hs_h hs_tgt hs_src hs_b ipr_a ipr_b bd_tgt bd_src bd_push].
            split; [rewrite <- app_assoc; cbn [app]; now rewrite <- inv_mid|]. split; [apply dens_join; [|constructor; auto; constructor]; eapply frame_dens_own; [exact F1|apply incl_l|auto]|].
            split; [eapply frame_dens_own; [exact F1| |auto]; rewrite app_assoc; intros z Hz'; apply in_or_app; left; apply in_or_app; now right|].
            split; [apply (frame_den _ _ C FC); auto; intros z Hz'; apply W; now right|]. split; [intros m Hm; eapply frame_within; eauto; apply W; now right|].
            split; [eapply frame_trans; eauto|]. split; [eapply mono_trans; eauto|]. split; auto. intros z Hz'. apply Zb. now right. }
          destruct (IH _ _ R' bd b s2') as [E L]; [cbn [ipr_a ipr_b]; exact H|exact Q|]. cbn [ipr_a ipr_b bd_push bd_src hs_h] in *.
          split; auto. pose proof (copies_size y1). unfold owed in *. cbn [map list_sum fold_right] in *. unfold list_sum in *. lia.
    Qed.
    Lemma crel_adv_b s1 s2 n take : crel s1 s2 -> osim crel (adv_b (ipr_msm (conv1 conv)) s1 n take) (hs_adv_b arc fuel conv s2 n take).
    Proof.
      intros (R & Hs & Hb). pose proof (mrel_adv_b arc fuel na nb conv Hfuel h0 C S0 s1 s2 n take R) as Sim.
      cbn [ipr_msm adv_b] in *. unfold ipr_adv_b in *. destruct take.
      - destruct (bd_extend (conv1 conv) n (ipr_a s1) (ipr_b s1)) as [[bd b] ok] eqn:Q. destruct ok; [|exact Logic.I]. cbn [osim] in *.
        destruct Sim as (s2' & Q2 & R'). exists s2'. split; auto. split; auto. cbn [ipr_a ipr_b]. cbn [hs_adv_b] in Q2.
        destruct (extend_cost n s1 s2 R bd b s2' Q Q2) as [-> L]. split; auto. lia.
      - cbn [osim] in *. destruct Sim as (s2' & Q2 & R'). exists s2'. split; auto. split; auto. cbn [ipr_a ipr_b]. split; auto.
        unfold hs_adv_b in Q2. injection Q2 as <-. cbn [hs_h]. pose proof (owed_skipn n (ipr_b s1)). lia.
    Qed.
    Lemma crel_coll s1 s2 : crel s1 s2 -> osim crel (coll_with rec1 (conv1 conv) s1) (h_coll arc rec2 fuel conv s2).
    Proof.
      intros (R & Hs & Hb). pose proof (mrel_coll arc rec1 rec2 fuel na nb conv Hrec Hfuel h0 C S0 s1 s2 R) as Sim.
      pose proof R as (I & Dt & Ds & Db & W & F & M & Za & Zb). destruct s1 as [[t a d] b], s2 as [h tgt src bs].
      cbn [hs_h hs_tgt hs_src hs_b ipr_a ipr_b bd_tgt bd_src bd_drop] in *. unfold coll_with, h_coll in *. cbn [hs_h hs_tgt hs_src hs_b ipr_a ipr_b bd_tgt bd_src bd_drop] in *.
      destruct a as [|x a]; [exact Logic.I|]. destruct b as [|y b]; [exact Logic.I|]. inversion Ds as [|av ? a' ? Dav Da']; subst. inversion Db as [|bv ? b' ? Dbv Db']; subst.
      destruct (rec1 x y) as [x'| |] eqn:Qr; try exact Logic.I.
      assert (Co : costs h (rec2 h av bv) (copies y)).
      { apply (Hcost h (tgt ++ a' ++ C) av bv x y x'); auto.
        - eapply inv_perm; [|exact I]. symmetry. apply (Permutation_middle tgt (a' ++ C)).
        - eapply St_incl; [|eapply St_frame; eauto]. rewrite app_assoc. apply incl_r.
        - eapply within_incl; [|apply W; now left]. rewrite app_assoc. apply incl_r.
        - apply Za. now left.
        - apply Zb. now left.
        - now inversion Hs.
        - now inversion Hs. }
      cbn [ipr_msm adv_a adv_b] in Sim |- *. unfold ipr_adv_a, ipr_adv_b in Sim |- *. cbn [obind osim] in Sim |- *.
      destruct Sim as (s2' & Q & R'). exists s2'. split; auto. split; auto.
      destruct (rec2 h av bv) as [[h1 av']|]; [|discriminate]. specialize (Co h1 av' eq_refl). destruct (n_is_empty h1 av') as [e|]; [|discriminate].
      assert (E : h_next (hs_h s2') = h_next h1).
      { unfold hs_adv_a, hs_adv_b in Q. cbn [hs_h hs_tgt hs_src hs_b] in Q. destruct (negb e).
        - cbn [obind] in Q. injection Q as <-. reflexivity.
        - destruct (drop_all h1 _) as [h2|] eqn:Qd; [|discriminate]. cbn [obind] in Q. injection Q as <-. cbn [hs_h]. eapply next_drop; eauto. }
      rewrite E. unfold owed in *. cbn [map list_sum fold_right skipn] in *. unfold list_sum in *.
      split; [|destruct (negb (t_is_empty x')); cbn [ipr_a ipr_b bd_consume bd_src skipn]; lia].
      destruct (negb (t_is_empty x')); unfold bd_consume; cbn [ipr_a bd_src skipn]; now inversion Hs.
    Qed.
    Lemma crel_msim ta tb : msim (op_with kcmp rec1 ta tb (conv1 conv)) (h_op kcmp arc rec2 fuel ta tb conv) crel.
    Proof.
      pose proof (mrel_msim kcmp arc rec1 rec2 fuel na nb conv Hrec Hfuel h0 C S0 ta tb) as X.
      constructor; intros; unfold op_with, h_op in *; cbn [mo_a mo_b mo_cmp mo_from_a mo_from_b mo_coll] in *.
      - eapply (ms_len_a _ _ _ X), H.
      - eapply (ms_len_b _ _ _ X), H.
      - eapply (ms_cmp _ _ _ X); eauto. apply H.
      - now apply crel_adv_a.
      - now apply crel_adv_b.
      - now apply crel_coll.
    Qed.
    Lemma merge_cost ta tb ns bs a b l : Inv h0 (ns ++ C) -> dens h0 ns a -> dens h0 bs b -> (forall m, In m bs -> within h0 C m) ->
      (forall x, In x a -> t_size x <= na) -> (forall x, In x b -> t_size x <= nb) -> Forall (fun x => t_prefix x <> [] /\ NE x) a ->
      h_next h0 + owed b <= B ->
      children_with kcmp strat rec1 ta tb (conv1 conv) a b = Ok l ->
      forall h' x, h_merge kcmp strat arc rec2 fuel ta tb conv bs h0 ns = Some (h', x) -> h_next h' <= B.
    Proof.
      intros I Da Db W Za Zb Ne Hb H h' x. unfold children_with, ipr_merge in H.
      assert (R0 : crel (ipr_new a b) (MkHst h0 [] ns bs)).
      { unfold crel, HeapOpsFacts.mrel. cbn. split; [|auto]. split; auto. split; [constructor|]. split; auto. split; auto. split; auto. split; [apply frame_refl|]. split; [apply mono_refl|]. auto. }
      pose proof (merge_sim _ _ _ (crel_msim ta tb) strat _ _ R0) as Sim. unfold h_merge.
      destruct (merge (op_with kcmp rec1 ta tb (conv1 conv)) strat (ipr_new a b)) as [s1|s1|s1|] eqn:Q; cbn [to_done] in H; try discriminate;
        cbn [osim] in Sim; destruct Sim as (s2 & -> & (_ & _ & L)); destruct (drop_all (hs_h s2) (hs_src s2)) as [h3|] eqn:Qd; try discriminate;
        intros [= <- <-]; rewrite (next_drop _ _ _ Qd); lia.
    Qed.
  End InPlaceCost.

  Definition reccost (rec1 : tree -> tree -> res tree) (rec2 : heap -> node -> node -> option (heap * node)) (F : nat) : Prop :=
    forall h C av bv x y x', Inv h (av :: C) -> St h C -> den h av x -> within h C bv -> den h bv y ->
      t_size x + t_size y < F -> t_prefix x <> [] -> NE x -> rec1 x y = Ok x' -> costs h (rec2 h av bv) (copies y).

  Lemma merge_kids_cost rec1 rec2 F na ta tb conv h C n m p v a pu vu cu l : recok rec1 rec2 F -> reccost rec1 rec2 F ->
    Inv h (n :: C) -> St h C -> den h n (Node p v a) -> within h C m -> den h m (Node pu vu cu) ->
    (forall x, In x a -> t_size x <= na) -> na + t_size (Node pu vu cu) <= F -> NE (Node p v a) ->
    children_with kcmp strat rec1 ta tb (conv1 conv) a cu = Ok l ->
    frugal h (h_merge_kids kcmp strat arc rec2 F ta tb conv m h n) (S (owed cu)) /\
    (uniq h n -> frugal h (h_merge_kids kcmp strat arc rec2 F ta tb conv m h n) (owed cu)).
  Proof.
    intros Hr Hc I S D W Du Za Hs Ne H. destruct (kids_of_ok _ _ _ _ _ Du) as (_ & _ & bs & Qb & Db).
    unfold h_merge_kids. rewrite Qb. eapply (wc_cost _ []); eauto. cbn [app]. intros h1 ns I1 D1 F1 M1 h' x Q.
    pose proof (kids_within _ _ _ _ W Qb) as Wb. pose proof (size_pos (Node pu vu cu)).
    eapply (merge_cost rec1 rec2 F na (t_size (Node pu vu cu) - 1) conv); [..|exact Q].
    - intros. eapply Hr; eauto. lia.
    - intros. eapply Hc; eauto. lia.
    - lia.
    - eapply St_frame; eauto.
    - exact I1.
    - exact D1.
    - eapply (frame_den _ _ C F1); eauto.
    - intros y Hy. eapply frame_within; eauto.
    - exact Za.
    - intros y Hy. pose proof (size_children (Node pu vu cu) y Hy). lia.
    - now apply NE_kids in Ne.
    - lia.
    - exact H.
  Qed.
  Lemma merge_mat_cost rec1 rec2 F na ta tb conv h C n m p v a u k u' l : recok rec1 rec2 F -> reccost rec1 rec2 F ->
    Inv h (n :: C) -> St h C -> den h n (Node p v a) -> within h C m -> den h m u ->
    (forall x, In x a -> t_size x <= na) -> na + t_size u < F -> mat_short u k = Ok u' -> NE (Node p v a) ->
    children_with kcmp strat rec1 ta tb (conv1 conv) a [u'] = Ok l ->
    frugal h (h_merge_mat kcmp strat arc rec2 F ta tb conv m k h n) (S (vectors u) + copies u').
  Proof.
    intros Hr Hc I S D W Du Za Hs Hm Ne H h9 x9. unfold h_merge_mat.
    assert (In1 : incl C (n :: C)) by (intros y Hy; now right).
    assert (S1 : St h (n :: C)) by (eapply St_incl; eauto). assert (W1 : within h (n :: C) m) by (eapply within_incl; eauto).
    pose proof (mat_cost F h (n :: C) m u k u' I S1 W1 Du ltac:(lia) Hm) as Co.
    destruct (h_mat_ok arc F h (n :: C) m u k u') as (h1 & tmp & Qm & I1 & D1 & F1 & M1); auto; [lia|]. rewrite Qm in *. specialize (Co h1 tmp eq_refl).
    assert (FC : frame h h1 C) by (eapply frame_incl; [|exact F1]; auto).
    assert (In2 : incl C (tmp :: C)) by (intros y Hy; now right).
    assert (I1' : Inv h1 (n :: tmp :: C)) by (eapply inv_perm; [apply perm_swap|exact I1]).
    assert (Dn : den h1 n (Node p v a)) by (apply (frame_pres _ _ _ F1); [now left|exact D]).
    assert (Sz : t_size u' = t_size u) by (eapply mat_short_size; eauto).
    assert (Y : yield1 h1 (tmp :: C) (with_children (h_merge kcmp strat arc rec2 F ta tb conv [tmp]) h1 n) (Node p v l)).
    { eapply with_children_ok; [exact I1'|exact Dn|].
      intros h2 ns I2 D2 F2 M2. eapply (children_with_ok kcmp strat arc rec1 rec2 F na (t_size u')); eauto.
      - intros. eapply Hr; eauto. lia.
      - lia.
      - eapply St_frame; [exact F2|]. eapply St_incl; [exact In2|]. eapply St_frame; eauto.
      - constructor; [|constructor]. apply (frame_pres _ _ _ F2); auto. now left.
      - intros y [<-|[]]. right. left. now left.
      - intros x [<-|[]]. lia. }
    assert (Z : frugal h1 (with_children (h_merge kcmp strat arc rec2 F ta tb conv [tmp]) h1 n) (1 + copies u')).
    { eapply (wc_cost _ [] (copies u') h1 (tmp :: C)); [exact I1'|exact Dn|]. cbn [app].
      intros h2 ns I2 D2 F2 M2 h' x Q. eapply (merge_cost rec1 rec2 F na (t_size u') conv); [..|exact Q].
      - intros. eapply Hr; eauto. lia.
      - intros. eapply Hc; eauto. lia.
      - lia.
      - eapply St_frame; [exact F2|]. eapply St_incl; [exact In2|]. eapply St_frame; eauto.
      - exact I2.
      - exact D2.
      - constructor; [|constructor]. apply (frame_pres _ _ _ F2); [now left|exact D1].
      - intros y [<-|[]]. right. left. now left.
      - exact Za.
      - intros y [<-|[]]. lia.
      - now apply NE_kids in Ne.
      - unfold owed. cbn [map list_sum fold_right]. lia.
      - exact H. }
    destruct Y as (h2 & n2 & Q2 & I2 & D2 & F2 & M2). rewrite Q2 in Z |- *. destruct (Z h2 n2 eq_refl) as [(b & ns & Qk & Qc) L].
    destruct (drop_frame h2 [tmp] (n2 :: C)) as (h3 & Q3 & I3 & F3 & M3); [eapply inv_perm; [apply perm_swap|exact I2]|]. rewrite Q3. intros [= <- <-].
    pose proof (next_drop _ _ _ Q3) as E3. split; [|lia]. exists b, ns. split; auto.
    destruct (proj2 (next_drop_loop _ _ _ _ Q3) b ns Qc) as [N|?]; auto.
    destruct (F3 b 1 ns) as (rc' & Q'); auto; [|congruence]. exists n2. split; [now left|]. now constructor.
  Qed.

  (** closing an operation with [unsplit]: nothing to pay if the vector is not shared *)
  Definition credit h C (r : option (heap * node)) t (N : nat) : Prop :=
    yield1 h C r t /\ forall h' n, r = Some (h', n) -> (uniq h' n /\ h_next h' <= h_next h + N) \/ S (h_next h') <= h_next h + N.
  Lemma credit_unsplit h C r t N : credit h C r t N -> costs h (and_unsplit r) N.
  Proof.
    intros ((h1 & n1 & -> & I & D & _ & _) & H) h' x Q. cbn [and_unsplit] in Q. destruct (unsplit_cost h1 C n1 t I D) as [A B].
    destruct (H h1 n1 eq_refl) as [[U L]|L]; [specialize (B U h' x Q)|specialize (A h' x Q)]; lia.
  Qed.
  Lemma frugal_credit h C r t N N' : yield1 h C r t -> frugal h r N -> N <= N' -> credit h C r t N'.
  Proof. intros Y F Hle. split; auto. intros h' n Q. left. destruct (F h' n Q). split; auto. lia. Qed.
  Lemma clear_credit h C n p v a N : Inv h (n :: C) -> den h n (Node p v a) -> 1 <= N ->
    credit h C (with_children vec_clear h (n_set_value None n)) (Node p None []) N.
  Proof.
    intros I D Hn. eapply frugal_credit; [eapply clear_yield; eauto| |exact Hn].
    destruct (n_set_value_ok h C n p v None a I D) as [I1 D1]. eapply wc_still; eauto. apply still_clear.
  Qed.
  Lemma same_credit h C n t N : Inv h (n :: C) -> den h n t -> 1 <= N -> credit h C (Some (h, n)) t N.
  Proof. intros I D Hn. split; [now apply same_yield|]. intros h' x [= <- <-]. right. lia. Qed.
  Lemma then_credit h C r t k t' N M : yield1 h C r t -> frugal h r N ->
    (forall h1 n, Inv h1 (n :: C) -> den h1 n t -> frame h h1 C -> mono h h1 -> uniq h1 n -> credit h1 C (k h1 n) t' M) -> credit h C (and_then r k) t' (N + M).
  Proof.
    intros (h1 & n & -> & I & D & F & Mo) Fr H. destruct (Fr h1 n eq_refl) as [U L]. cbn [and_then].
    destruct (H h1 n I D F Mo U) as [Y Z]. split; [eapply yield1_trans; eauto|]. intros h' x Q. destruct (Z h' x Q) as [[U' L']|L']; [left|right]; [split; auto|]; lia.
  Qed.

  Lemma copies_ge p v (c : list tree) : S (owed c) <= copies (Node p v c).
  Proof. rewrite copies_unfold. unfold owed. lia. Qed.
  Lemma copies_else p v (c : list tree) : 0 < length p -> S (S (vectors (Node p v c))) <= copies (Node p v c).
  Proof. intros H. rewrite copies_unfold. destruct (length p); [lia|]. nia. Qed.
  Lemma common_le (a b : list K) : common_prefix kcmp a b <= length a /\ common_prefix kcmp a b <= length b.
  Proof.
    revert b. induction a as [|x a IH]; intros [|y b]; cbn [common_prefix length]; try lia. destruct (keqb _ x y); [|lia]. specialize (IH b). lia.
  Qed.

  (** the root may have an empty prefix, and then the first level shares no component with the key *)
  Definition budget (x y : tree) : nat := match t_prefix x with [] => S (vectors y) | _ => 0 end + copies y.
  Lemma budget_short (x y : tree) n y' : mat_short y n = Ok y' -> n = length (t_prefix x) -> S (vectors y) + copies y' <= budget x y.
  Proof.
    intros H Hn. unfold budget. destruct (t_prefix x) as [|z p].
    - subst n. cbn [length] in H. rewrite (mat_short_id _ _ _ H). cbn [skipn]. destruct y as [py vy cy]. cbn [t_prefix t_value t_children]. lia.
    - cbn [length] in Hn. pose proof (copies_short y n y' H ltac:(lia)). lia.
  Qed.
  Lemma budget_ge (x y : tree) : copies y <= budget x y.
  Proof. unfold budget. destruct (t_prefix x); lia. Qed.
  Lemma budget_rec (x y : tree) : t_prefix x <> [] -> budget x y = copies y.
  Proof. unfold budget. now destruct (t_prefix x). Qed.

  Definition opcost (rec1 : tree -> tree -> res tree) (rec2 : heap -> node -> node -> option (heap * node)) (F : nat) : Prop :=
    forall h C av bv x y x', Inv h (av :: C) -> St h C -> den h av x -> within h C bv -> den h bv y ->
      t_size x + t_size y < F -> NE x -> rec1 x y = Ok x' -> costs h (rec2 h av bv) (budget x y).
  Lemma opcost_rec rec1 rec2 F : opcost rec1 rec2 F -> reccost rec1 rec2 F.
  Proof. intros H h C av bv x y x' I S D W Du Hs Np Ne Q. rewrite <- (budget_rec x y Np). eapply H; eauto. Qed.

  Ltac open := match goal with
    | H : rbind ?r _ = Ok _ |- _ => let Q := fresh "Q" in destruct r eqn:Q; cbn [rbind] in H; [|discriminate|discriminate]
    end.
  Ltac fin := repeat match goal with H : Ok _ = Ok _ |- _ => injection H as H; subst end.
  Ltac start := match goal with
    | D : den ?h ?av ?x, Du : den ?h ?bv ?y |- _ =>
        rewrite (den_prefix _ _ _ D), (den_prefix _ _ _ Du);
        try rewrite (den_value _ _ _ D); try rewrite (den_value _ _ _ Du)
    end.
  Ltac sized := first [intros ? ?; eapply (kid_size [] None); eauto | cbn [t_size] in *; lia | eapply NE_prefix; eassumption].
  Ltac kids := match goal with |- credit _ _ _ _ (budget ?x (Node _ _ ?cu)) =>
      eapply frugal_credit with (N := S (owed cu)); [eapply merge_kids_ok; eauto; sized
                            |eapply merge_kids_cost; eauto; sized
                            |etransitivity; [apply copies_ge|apply budget_ge]] end.
  Ltac mats E := eapply frugal_credit; [eapply merge_mat_ok; eauto; sized
                                       |eapply merge_mat_cost; eauto; sized
                                       |eapply budget_short; [eassumption|exact E]].

  (** after a split the vector is not shared *)
  Lemma split_kids rec1 rec2 F ta tb conv h C av bv p v c p1 v1 c1 w pu vu cu k l : recok rec1 rec2 F -> reccost rec1 rec2 F ->
    Inv h (av :: C) -> St h C -> den h av (Node p v c) -> within h C bv -> den h bv (Node pu vu cu) -> NE (Node p v c) ->
    t_size (Node p v c) + t_size (Node pu vu cu) < S F -> t_split (Node p v c) k = Ok (Node p1 v1 c1) ->
    children_with kcmp strat rec1 ta tb (conv1 conv) c1 cu = Ok l ->
    credit h C (and_then (h_split arc h av k) (fun h self => h_merge_kids kcmp strat arc rec2 F ta tb conv bv h (n_set_value w self)))
      (Node p1 w l) (budget (Node p v c) (Node pu vu cu)).
  Proof.
    intros Hr Hc I S D W Du Ne Hs Q H. destruct (split_shape _ _ _ Q) as (Sp & Sv & Ss). cbn [t_children] in Ss.
    assert (Ne1 : NE (Node p1 v1 c1)) by (eapply NE_split; eauto).
    assert (G : credit h C (and_then (h_split arc h av k) (fun h self => h_merge_kids kcmp strat arc rec2 F ta tb conv bv h (n_set_value w self)))
      (Node p1 w l) (1 + owed cu)).
    { eapply then_credit; [eapply h_split_ok; eauto|eapply split_cost; eauto|]. intros h1 n1 I1 D1 F1 M1 U1.
      destruct (n_set_value_ok h1 C n1 p1 v1 w c1 I1 D1) as [I2 D2].
      assert (U2 : uniq h1 (n_set_value w n1)) by exact U1.
      assert (S1 : St h1 C) by (eapply St_frame; eauto). assert (W1 : within h1 C bv) by (eapply frame_within; eauto).
      assert (Du1 : den h1 bv (Node pu vu cu)) by (eapply (frame_den _ _ C F1); eauto).
      eapply frugal_credit with (N := owed cu).
      - eapply (merge_kids_ok kcmp strat arc rec1 rec2 F (t_size (Node p v c)) ta tb conv); eauto. lia.
      - eapply (merge_kids_cost rec1 rec2 F (t_size (Node p v c)) ta tb conv h1 C _ _ p1 w c1); eauto; [lia|eapply NE_prefix; eauto].
      - lia. }
    split; [apply G|]. intros h' x Qx. pose proof (copies_ge pu vu cu). pose proof (budget_ge (Node p v c) (Node pu vu cu)).
    destruct (proj2 G h' x Qx) as [[U L]|L]; [left|right]; [split; auto|]; lia.
  Qed.
  Lemma set_same (n : node) w : n_value n = w -> n_set_value w n = n.
  Proof. intros <-. now destruct n. Qed.
  Lemma and_then_ext (r : option (heap * node)) k1 k2 : (forall h n, r = Some (h, n) -> k1 h n = k2 h n) -> and_then r k1 = and_then r k2.
  Proof. intros H. destruct r as [[h n]|]; auto. now apply H. Qed.
  (** the value of a fresh split node is None *)
  Lemma split_value h C n t k t' : Inv h (n :: C) -> St h C -> den h n t -> t_split t k = Ok t' ->
    forall h1 n1, h_split arc h n k = Some (h1, n1) -> n_value n1 = t_value t'.
  Proof.
    intros I S D Q h1 n1 H. destruct (h_split_ok arc h C n t k t' I S D Q) as (h2 & n2 & Q2 & _ & D2 & _). rewrite Q2 in H. injection H as <- <-.
    now apply den_value in D2.
  Qed.

  Lemma outer_cost f F : forall k, opcost (outer_with kcmp strat f k) (h_outer kcmp strat arc f F) F.
  Proof.
    induction F as [|F IH]; intros k h C av bv x y x' I S D W Du Hs Ne H; [lia|]. destruct k as [|k]; [discriminate|].
    cbn [outer_with] in H. cbn [h_outer]. specialize (IH k). apply opcost_rec in IH. pose proof (outer_refines kcmp strat arc f F k) as Hr.
    open. fin. apply (credit_unsplit h C _ x0). start.
    destruct x as [p v c], y as [pu vu cu]. cbn [t_prefix t_value t_children] in *. set (n := common_prefix kcmp p pu) in *.
    destruct ((n =? length p) && (n =? length pu)); [|destruct (n =? length p) eqn:En; [|destruct (n =? length pu) eqn:Eu]].
    - open. fin. destruct (n_set_value_ok h C av p v (upd_outer f v vu) c I D) as [I1 D1]. kids.
    - apply Nat.eqb_eq in En. open. open. fin. mats En.
    - open. destruct x as [p1 v1 c1]. open. fin. cbn [t_value t_prefix t_children] in *.
      rewrite (and_then_ext _ _ (fun h self => h_merge_kids kcmp strat arc (h_outer kcmp strat arc f F) F true true true bv h (n_set_value (upd_outer f v1 vu) self))).
      + eapply split_kids; eauto.
      + intros h1 n1 Qs. cbn beta. now rewrite (split_value h C av _ n _ I S D Q0 h1 n1 Qs).
    - open. destruct (split_shape _ _ _ Q0) as (Sp & Sv & Ss). open. match goal with Hm : mat_short _ _ = Ok ?z |- _ => rename z into tm end. open. fin.
      assert (G : credit h C (and_then (h_split arc h av n) (fun h1 self =>
              match h_mat arc F h1 bv n with
              | Some (h2, c0) => and_then (with_children (vec_push c0) h2 self) (fun h3 self0 => with_children (vec_sort kcmp) h3 self0)
              | None => None
              end)) (Node (t_prefix x) (t_value x) x1) (1 + (vectors (Node pu vu cu) + 1))).
      { eapply then_credit; [eapply h_split_ok; eauto|eapply split_cost; eauto|]. intros h1 n1 I1 D1 F1 M1 U1.
        assert (In1 : incl C (n1 :: C)) by (intros z Hz; now right).
        assert (S1 : St h1 (n1 :: C)) by (eapply St_incl; [exact In1|]; eapply St_frame; eauto).
        assert (W1 : within h1 (n1 :: C) bv) by (eapply within_incl; [exact In1|]; eapply frame_within; eauto).
        assert (Du1 : den h1 bv (Node pu vu cu)) by (eapply (frame_den _ _ C F1); eauto).
        assert (Hf : t_size (Node pu vu cu) <= F) by (pose proof (size_pos (Node p v c)); lia).
        pose proof (mat_cost F h1 (n1 :: C) bv (Node pu vu cu) n tm I1 S1 W1 Du1 Hf Q1) as Co.
        destruct (h_mat_ok arc F h1 (n1 :: C) bv (Node pu vu cu) n tm) as (h2 & tmp & Qm & I2 & D2 & F2 & M2); auto.
        rewrite Qm in *. specialize (Co h2 tmp eq_refl).
        assert (FC : frame h1 h2 C) by (eapply frame_incl; [|exact F2]; auto).
        destruct x as [p1 v1 c1]. cbn [t_prefix t_value t_children] in *.
        assert (I2' : Inv h2 (n1 :: tmp :: C)) by (eapply inv_perm; [apply perm_swap|exact I2]).
        assert (D1' : den h2 n1 (Node p1 v1 c1)) by (apply (frame_pres _ _ _ F2); [now left|exact D1]).
        assert (Y1 : yield1 h2 C (with_children (vec_push tmp) h2 n1) (Node p1 v1 (c1 ++ [tm]))).
        { eapply (with_children_in _ [tmp]); [exact I2'|exact D1'|].
          intros h3 ns I3 D3 F3 M3. apply vec_push_ok; auto. apply (frame_pres _ _ _ F3); auto. now left. }
        assert (Fr1 : frugal h2 (with_children (vec_push tmp) h2 n1) 1) by (eapply wc_still; eauto; apply still_push).
        assert (Cr : credit h2 C (and_then (with_children (vec_push tmp) h2 n1) (fun h3 self0 => with_children (vec_sort kcmp) h3 self0)) (Node p1 v1 x1) (1 + 0)).
        { eapply then_credit; [exact Y1|exact Fr1|]. intros h3 n3 I3 D3 F3 M3 U3. eapply frugal_credit; [|eapply (wc_still _ h3 n3 C); eauto; apply still_sort|lia].
          eapply with_children_ok; eauto. intros h4 ns I4 D4 F4 M4. eapply vec_sort_ok; eauto. }
        split; [eapply yield1_trans; [exact FC|exact M2|apply Cr]|]. intros h' z Qz. destruct (proj2 Cr h' z Qz) as [[U L]|L]; [left|right]; [split; auto|]; lia. }
      assert (Hn : 0 < length pu) by (pose proof (common_le p pu) as Hle; change (common_prefix kcmp p pu) with n in Hle; apply Nat.eqb_neq in Eu; lia).
      pose proof (copies_else pu vu cu Hn) as Hc. pose proof (budget_ge (Node p v c) (Node pu vu cu)).
      split; [apply G|]. intros h' z Qz. destruct (proj2 G h' z Qz) as [[U L]|L]; [left|right]; [split; auto|]; lia.
  Qed.

  Lemma inner_cost f F : forall k, opcost (inner_with kcmp strat f k) (h_inner kcmp strat arc f F) F.
  Proof.
    induction F as [|F IH]; intros k h C av bv x y x' I S D W Du Hs Ne H; [lia|]. destruct k as [|k]; [discriminate|].
    cbn [inner_with] in H. cbn [h_inner]. specialize (IH k). apply opcost_rec in IH. pose proof (inner_refines kcmp strat arc f F k) as Hr.
    open. fin. apply (credit_unsplit h C _ x0). start.
    destruct x as [p v c], y as [pu vu cu]. cbn [t_prefix t_value t_children] in *. set (n := common_prefix kcmp p pu) in *.
    assert (B1 : 1 <= budget (Node p v c) (Node pu vu cu)) by (pose proof (copies_ge pu vu cu); pose proof (budget_ge (Node p v c) (Node pu vu cu)); lia).
    destruct ((n =? length p) && (n =? length pu)); [|destruct (n =? length p) eqn:En; [|destruct (n =? length pu) eqn:Eu]].
    - open. fin. destruct (n_set_value_ok h C av p v (upd_inner f v vu) c I D) as [I1 D1]. kids.
    - apply Nat.eqb_eq in En. open. open. fin. destruct (n_set_value_ok h C av p v None c I D) as [I1 D1]. mats En.
    - open. destruct x as [p1 v1 c1]. open. fin. cbn [t_value t_prefix t_children] in *.
      rewrite (and_then_ext _ _ (fun h self => h_merge_kids kcmp strat arc (h_inner kcmp strat arc f F) F false false false bv h (n_set_value v1 self))).
      + eapply split_kids; eauto.
      + intros h1 n1 Qs. cbn beta. rewrite set_same; auto. exact (split_value h C av _ n _ I S D Q0 h1 n1 Qs).
    - fin. eapply clear_credit; eauto.
  Qed.
  Lemma left_cost f F : forall k, opcost (left_with kcmp strat f k) (h_left kcmp strat arc f F) F.
  Proof.
    induction F as [|F IH]; intros k h C av bv x y x' I S D W Du Hs Ne H; [lia|]. destruct k as [|k]; [discriminate|].
    cbn [left_with] in H. cbn [h_left]. specialize (IH k). apply opcost_rec in IH. pose proof (left_refines kcmp strat arc f F k) as Hr.
    open. fin. apply (credit_unsplit h C _ x0). start.
    destruct x as [p v c], y as [pu vu cu]. cbn [t_prefix t_value t_children] in *. set (n := common_prefix kcmp p pu) in *.
    assert (B1 : 1 <= budget (Node p v c) (Node pu vu cu)) by (pose proof (copies_ge pu vu cu); pose proof (budget_ge (Node p v c) (Node pu vu cu)); lia).
    destruct ((n =? length p) && (n =? length pu)); [|destruct (n =? length p) eqn:En; [|destruct (n =? length pu) eqn:Eu]].
    - open. fin. destruct (n_set_value_ok h C av p v (upd_left f v vu) c I D) as [I1 D1]. kids.
    - apply Nat.eqb_eq in En. open. open. fin. mats En.
    - open. destruct x as [p1 v1 c1]. open. fin. cbn [t_value t_prefix t_children] in *.
      rewrite (and_then_ext _ _ (fun h self => h_merge_kids kcmp strat arc (h_left kcmp strat arc f F) F true false false bv h (n_set_value v1 self))).
      + eapply split_kids; eauto.
      + intros h1 n1 Qs. cbn beta. rewrite set_same; auto. exact (split_value h C av _ n _ I S D Q0 h1 n1 Qs).
    - fin. now apply same_credit.
  Qed.
  Lemma remove_cost f F : forall k, opcost (remove_with kcmp strat f k) (h_remove kcmp strat arc f F) F.
  Proof.
    induction F as [|F IH]; intros k h C av bv x y x' I S D W Du Hs Ne H; [lia|]. destruct k as [|k]; [discriminate|].
    cbn [remove_with] in H. cbn [h_remove]. specialize (IH k). apply opcost_rec in IH. pose proof (remove_refines kcmp strat arc f F k) as Hr.
    open. fin. apply (credit_unsplit h C _ x0). start.
    destruct x as [p v c], y as [pu vu cu]. cbn [t_prefix t_value t_children] in *. set (n := common_prefix kcmp p pu) in *.
    assert (B1 : 1 <= budget (Node p v c) (Node pu vu cu)) by (pose proof (copies_ge pu vu cu); pose proof (budget_ge (Node p v c) (Node pu vu cu)); lia).
    destruct ((n =? length p) && (n =? length pu)); [|destruct (n =? length pu) eqn:Eu; [|destruct (n =? length p) eqn:En]].
    - destruct (hit f vu); [fin; eapply clear_credit; eauto|]. open. fin. kids.
    - destruct (hit f vu); [fin; eapply clear_credit; eauto|]. open. destruct x as [p1 v1 c1]. open. fin. cbn [t_value t_prefix t_children] in *.
      rewrite (and_then_ext _ _ (fun h self => h_merge_kids kcmp strat arc (h_remove kcmp strat arc f F) F true false false bv h (n_set_value v1 self))).
      + eapply split_kids; eauto.
      + intros h1 n1 Qs. cbn beta. rewrite set_same; auto. exact (split_value h C av _ n _ I S D Q0 h1 n1 Qs).
    - apply Nat.eqb_eq in En. open. open. fin. mats En.
    - fin. now apply same_credit.
  Qed.
  Lemma retain_cost f F : forall k, opcost (retain_with kcmp strat f k) (h_retain kcmp strat arc f F) F.
  Proof.
    induction F as [|F IH]; intros k h C av bv x y x' I S D W Du Hs Ne H; [lia|]. destruct k as [|k]; [discriminate|].
    cbn [retain_with] in H. cbn [h_retain]. specialize (IH k). apply opcost_rec in IH. pose proof (retain_refines kcmp strat arc f F k) as Hr.
    open. fin. apply (credit_unsplit h C _ x0). start.
    destruct x as [p v c], y as [pu vu cu]. cbn [t_prefix t_value t_children] in *. set (n := common_prefix kcmp p pu) in *.
    assert (B1 : 1 <= budget (Node p v c) (Node pu vu cu)) by (pose proof (copies_ge pu vu cu); pose proof (budget_ge (Node p v c) (Node pu vu cu)); lia).
    destruct ((n =? length p) && (n =? length pu)); [|destruct (n =? length pu) eqn:Eu; [|destruct (n =? length p) eqn:En]].
    - destruct (hit f vu); [fin; now apply same_credit|]. open. fin. destruct (n_set_value_ok h C av p v None c I D) as [I1 D1]. kids.
    - destruct (hit f vu); [fin; now apply same_credit|]. open. destruct x as [p1 v1 c1]. open. fin. cbn [t_value t_prefix t_children] in *.
      rewrite (and_then_ext _ _ (fun h self => h_merge_kids kcmp strat arc (h_retain kcmp strat arc f F) F false false false bv h (n_set_value v1 self))).
      + eapply split_kids; eauto.
      + intros h1 n1 Qs. cbn beta. rewrite set_same; auto. exact (split_value h C av _ n _ I S D Q0 h1 n1 Qs).
    - apply Nat.eqb_eq in En. open. open. fin. destruct (n_set_value_ok h C av p v None c I D) as [I1 D1]. mats En.
    - fin. eapply clear_credit; eauto.
  Qed.
End HeapCost.

(** The questions asked of radix trees when the comparisons of the key components answer like an order: whatever is answered is
    what the functions of RadixModel.v answer. Nothing is asked of the trees. *)
From Verif Require Export RadixLawWith.
From Verif Require Import RadixEffMerge PersistFacts RadixComb.

Section Search.
  Context {T S : Type} (f : S -> T -> S * option comparison) (g : T -> option comparison) (l : list T).
  Context (step : forall s y s' q, f s y = (s', Some q) -> g y = Some q).
  Lemma wbs_loop_like : forall fuel i j s r s', wbs_loop f l fuel i j s = (r, s') ->
    r = BsPanic \/ forall cnt, fst (bs_loop g l fuel i j cnt) = r.
  Proof using step.
    induction fuel as [|fuel IH]; intros i j s r s'; cbn [wbs_loop bs_loop].
    - intros [= <- <-]. now right.
    - destruct (i <? j); [|intros [= <- <-]; now right].
      destruct (nth_error l _) as [x|]; [|intros [= <- <-]; now left].
      destruct (f s x) as [s1 [q|]] eqn:Q; [|intros [= <- <-]; now left].
      apply step in Q. rewrite Q. destruct q.
      + intros [= <- <-]. now right.
      + intros R. apply IH in R as [R|R]; auto.
      + intros R. apply IH in R as [R|R]; auto.
  Qed.
  Lemma wbsearch_like s r s' : wbsearch f l s = (r, s') -> r = BsPanic \/ bsearch g l = r.
  Proof using step.
    intros H. apply wbs_loop_like in H as [H|H]; [now left|]. right. unfold bsearch, bs_count. apply H.
  Qed.
End Search.

Section Quest.
  Context {K : Type} {kcmp : K -> K -> comparison} (L : OrdLaws kcmp) (EQ : OrdEq kcmp).
  Context {E : Type} (u : ucode E K) (AN : answers_like kcmp u) (strat : nat -> nat -> bool).
  Notation wf := (wf kcmp).
  Notation lk := (lk kcmp).

  (** if [r'] returned, [r] is what it returned *)
  Definition like {X} (r' : given_back E X) (r : res X) : Prop := forall e x, r' = Some (e, Ret x) -> r = Ok x.
  Lemma like_ret {X} e (x : X) : like (Some (e, Ret x)) (Ok x).
  Proof. now intros e' x' [= _ <-]. Qed.
  Lemma like_throw {X} e (r : res X) : like (Some (e, Throw)) r.
  Proof. discriminate. Qed.
  Lemma like_bind {X Y} r' r (k' : X -> E -> given_back E Y) k : like r' r -> (forall x e, r = Ok x -> like (k' x e) (k x)) -> like (then_ r' k') (rbind r k).
  Proof.
    intros H HK. destruct r' as [[e [x|]]|]; cbn [then_]; [|discriminate..]. specialize (H e x eq_refl). rewrite H. cbn [rbind].
    now apply HK.
  Qed.
  Lemma ucommon_like a b e {X} (k' : nat -> E -> given_back E X) k :
    (forall e, like (k' (common_prefix kcmp a b) e) k) -> like (then_ (ucommon u a b e) k') k.
  Proof using AN.
    intros H. destruct (ucommon_law u AN a b e) as (e' & r & -> & Hr). destruct r as [n|]; cbn [then_]; [|apply like_throw].
    rewrite Hr. apply H.
  Qed.

  Section Find.
    Context {V : Type}.
    Lemma ufind_like : forall fuel (t : rtree K V) key e, like (ufind_loop u fuel t key e) (find_loop kcmp fuel t key).
    Proof using AN.
      induction fuel as [|fuel IH]; intros t key e; [discriminate|]. cbn [ufind_loop find_loop].
      apply ucommon_like. intros e1. set (n := common_prefix kcmp (t_prefix t) key).
      destruct (_ && _); [apply like_ret|]. destruct (_ =? 0); [apply like_ret|]. destruct (_ =? 0); [|apply like_ret].
      destruct (nth_error key n) as [c|]; [|apply like_throw].
      destruct (wbsearch _ _ _) as [r e2] eqn:Q.
      apply (wbsearch_like _ (fun x => match t_prefix x with h :: _ => Some (kcmp h c) | [] => None end)) in Q.
      2:{ intros s y s' q. destruct (t_prefix y) as [|h p]; [discriminate|]. destruct (u_cmp u s (h, c)) as [s1 [r1|]] eqn:Qc; [|discriminate].
          intros [= <- <-]. now rewrite (an_cmp kcmp u AN _ _ _ _ _ Qc). }
      destruct Q as [->|Q]; [apply like_throw|]. rewrite Q. destruct r as [i|i| |]; [| apply like_ret|apply like_throw|discriminate].
      destruct (nth_error (t_children t) i); [apply IH|apply like_throw].
    Qed.
    Lemma uget_like (t : rtree K V) key e : like (urt_get u t key e) (rt_get kcmp t key).
    Proof using AN. unfold urt_get, rt_get. apply like_bind; [apply ufind_like|]. intros x e1 _. apply like_ret. Qed.
    Lemma ucontains_like (t : rtree K V) key e : like (urt_contains_key u t key e) (rt_contains_key kcmp t key).
    Proof using AN. unfold urt_contains_key, rt_contains_key. apply like_bind; [apply ufind_like|]. intros x e1 _. apply like_ret. Qed.
    Lemma like_quiet {X Y} e (r : res X) (k' : X -> given_back E Y) k : (forall x, r = Ok x -> like (k' x) (k x)) -> like (quiet e r k') (rbind r k).
    Proof. intros H. destruct r as [x| |]; cbn [quiet rbind]; [now apply H|discriminate..]. Qed.
    Lemma uscan_like (t : rtree K V) key e : like (urt_scan_prefix u t key e) (rt_scan_prefix kcmp t key).
    Proof using AN.
      unfold urt_scan_prefix, rt_scan_prefix. apply like_bind; [apply ufind_like|]. intros r e1 _.
      assert (H : forall r : res (list (list K * V)), like (quiet e1 r (fun l => Some (e1, Ret l))) r).
      { intros r0 e2 l. destruct r0 as [x| |]; cbn [quiet]; [|discriminate..]. now intros [= _ <-]. }
      destruct r; apply H.
    Qed.
    (** the copy of a whole tree *)
    Lemma uclone_law (cl : clos E V V) v e : exists e' r, uclone cl v e = Some (e', r) /\ match r with Ret v' => once cl v v' | Throw => True end.
    Proof.
      unfold uclone. destruct v as [v|]; [|now exists e, (Ret None)]. destruct (cl e v) as [e1 [v1|]] eqn:Q; cbn [then_].
      - exists e1, (Ret (Some v1)). split; [reflexivity|]. cbn [once]. eauto.
      - now exists e1, Throw.
    Qed.
    Lemma recopied_node (cl : clos E V V) p v v' (c c' : list (rtree K V)) : once cl v v' -> Forall2 (recopied (kcmp := kcmp) cl) c c' ->
      recopied (kcmp := kcmp) cl (Node p v c) (Node p v' c').
    Proof.
      intros HV HC. pose proof (Forall2_len _ _ _ HC) as Len. split; [reflexivity|]. split; [|split].
      - cbn [t_is_empty]. destruct v, v'; try (now destruct HV); auto. destruct c, c'; try discriminate; auto.
      - intros q. rewrite !wf_node. intros [W1 W2]. split; [now apply (recopied_list cl q c c')|]. intros Q. destruct (W2 Q) as [W3 W4].
        split.
        + intros Hv Hc. apply W3; [now apply (once_none cl v v')|]. subst c'. now destruct c.
        + intros Hv. rewrite <- Len. apply W4. now apply (once_none cl v v').
      - intros k. rewrite !lk_node. destruct (strip kcmp p k) as [[|x r]|]; [exact HV|now apply recopied_lkc|exact I].
    Qed.
    Definition same_shape (cl : clos E V V) (t t' : rtree K V) : Prop :=
      t_prefix t' = t_prefix t /\ once cl (t_value t) (t_value t') /\ Forall2 (recopied (kcmp := kcmp) cl) (t_children t) (t_children t').
    Lemma same_recopied (cl : clos E V V) t t' : same_shape cl t t' -> recopied (kcmp := kcmp) cl t t'.
    Proof. destruct t as [p v c], t' as [p' v' c']. intros (H1 & H2 & H3). cbn [t_prefix t_value t_children] in *. rewrite H1. now apply recopied_node. Qed.
    Lemma uclone_tree_law (cl : clos E V V) (t : rtree K V) : forall e, exists e' r, uclone_tree cl t e = Some (e', r) /\
      match r with Ret t' => same_shape cl t t' | Throw => True end.
    Proof.
      induction t as [p v c IH] using rtree_ind'. intros e. cbn [uclone_tree].
      destruct (uclone_law cl v e) as (e1 & [v'|] & -> & HV); cbn [then_]; [|now exists e1, Throw].
      set (go := fix go (l : list (rtree K V)) (e : E) : given_back E (list (rtree K V)) := match l with [] => _ | _ => _ end).
      assert (HC : forall e, exists e' r, go c e = Some (e', r) /\ match r with Ret c' => Forall2 (recopied (kcmp := kcmp) cl) c c' | Throw => True end).
      { clear e e1. induction c as [|x c IHc]; intros e; cbn [go]; [exists e, (Ret []); split; [reflexivity|constructor]|].
        apply Forall_cons_iff in IH as [IHx IH]. destruct (IHx e) as (e1 & [x'|] & -> & Hx); cbn [then_]; [|now exists e1, Throw].
        destruct (IHc IH e1) as (e2 & [c'|] & -> & Hc); cbn [then_]; [|now exists e2, Throw].
        exists e2, (Ret (x' :: c')). split; [reflexivity|]. constructor; auto. now apply same_recopied. }
      destruct (HC e1) as (e2 & [c'|] & -> & HC'); cbn [then_]; [|now exists e2, Throw].
      eexists e2, (Ret _). split; [reflexivity|]. split; [reflexivity|]. now split.
    Qed.
    Lemma prepend_shape (cl : clos E V V) q p v v' (c c' : list (rtree K V)) : once cl v v' -> Forall2 (recopied (kcmp := kcmp) cl) c c' ->
      recopied (kcmp := kcmp) cl (rt_prepend (Node p v c) q) (rt_prepend (Node p v' c') q).
    Proof.
      intros HV HC. pose proof (Forall2_len _ _ _ HC) as Len. unfold rt_prepend. destruct q as [|k0 q]; [now apply recopied_node|].
      assert (Z : t_is_empty (Node p v' c') = t_is_empty (Node p v c)).
      { cbn [t_is_empty]. destruct v, v'; try (now destruct HV); auto. destruct c, c'; try discriminate; auto. }
      rewrite Z. destruct (t_is_empty (Node p v c)); now apply recopied_node.
    Qed.
    Lemma ufilter_like (cl : clos E V V) (t : rtree K V) p e e' t' : urt_filter_prefix u cl t p e = Some (e', Ret t') ->
      exists t0, rt_filter_prefix kcmp t p = Ok t0 /\ recopied (kcmp := kcmp) cl t0 t'.
    Proof using AN.
      unfold urt_filter_prefix, rt_filter_prefix. pose proof (ufind_like (S (t_size t)) t p e) as F. unfold ufind. intros H.
      destruct (ufind_loop _ _ _ _ _) as [[e1 [r|]]|]; cbn [then_] in H; [|discriminate..]. specialize (F e1 r eq_refl).
      unfold t_find. rewrite F. cbn [rbind]. destruct r as [s|s rt|s rt rp].
      - destruct (uclone_tree_law cl s e1) as (e2 & [s'|] & Q & R); rewrite Q in H; cbn [then_] in H; [|discriminate].
        injection H as <- <-. destruct s as [p0 v c]. eexists. split; [reflexivity|]. destruct R as (R1 & R2 & R3). now apply recopied_node.
      - destruct (uclone_tree_law cl s e1) as (e2 & [s'|] & Q & R); rewrite Q in H; cbn [then_] in H; [|discriminate].
        destruct s as [p0 v c], s' as [p1 v1 c1]. destruct R as (R1 & R2 & R3). cbn [t_prefix t_value t_children] in *. rewrite R1 in H.
        destruct (rt <=? length p0); [|discriminate]. injection H as <- <-. eexists. split; [reflexivity|]. now apply prepend_shape.
      - injection H as <- <-. exists rt_empty. split; [reflexivity|]. now apply recopied_node.
    Qed.
  End Find.

  (** ** merging to an answer *)
  Section BoolMerge.
    Context {V X : Type} (rec : rtree K V -> rtree K X -> res bool) (rec' : rtree K V -> rtree K X -> E -> given_back E bool).
    Context (REC : forall a b e, like (rec' a b e) (rec a b)) (ta : bool).
    Notation bst := (bstate (rtree K V) (rtree K X)).
    Definition likes (o' : out (bst * E)) (o : out bst) : Prop :=
      match o' with Cont s => o = Cont (fst s) | Stop s => o = Stop (fst s) | Panic _ | NoFuel => True end.
    Lemma likes_step o e : likes (ustep o e) o.
    Proof. now destruct o. Qed.
    Lemma likes_bind o' o k' k : likes o' o -> (forall s, likes (k' s) (k (fst s))) -> likes (obind o' k') (obind o k).
    Proof. intros H HK. destruct o' as [s|s|s|]; cbn [obind likes] in *; [|now rewrite H|exact I..]. rewrite H. apply HK. Qed.
    Notation O := (op_bool kcmp rec ta). Notation O' := (uop_bool rec' ta).
    Lemma ucoll_bool_like s : likes (ucoll_bool rec' s) (coll_bool rec (fst s)).
    Proof using REC.
      destruct s as [m e]. unfold ucoll_bool, coll_bool. cbn [fst]. destruct (bs_a m) as [|x a]; [exact I|]. destruct (bs_b m) as [|y b]; [exact I|].
      specialize (REC x y e). destruct (rec' x y e) as [[e' [t|]]|]; [|exact I..]. rewrite (REC e' t eq_refl).
      cbn [bs_msm adv_a adv_b]. apply likes_step.
    Qed.
    Lemma uhead_like {S} (s : S * E) (x : rtree K V) (y : rtree K X) s' q : uhead_cmp u s x y = (s', Some q) -> fst s' = fst s /\ head_cmp kcmp x y = Some q.
    Proof using AN.
      unfold uhead_cmp, head_cmp. destruct (t_prefix x) as [|h p]; [discriminate|]. destruct (t_prefix y) as [|h' p']; [discriminate|].
      destruct (u_cmp u (snd s) (h, h')) as [e' [c|]] eqn:Qc; [|discriminate]. intros [= <- <-]. split; [reflexivity|].
      now rewrite (an_cmp kcmp u AN _ _ _ _ _ Qc).
    Qed.
    Lemma ubinary_like : forall fuel s an bn, likes (gbinary (uhead_cmp u) O' fuel s an bn) (binary_merge O fuel (fst s) an bn).
    Proof using AN REC.
      induction fuel as [|fuel IH]; intros s an bn; [exact I|]. cbn [gbinary binary_merge].
      cbn [uop_bool op_bool mo_a mo_b mo_from_a mo_from_b mo_cmp mo_coll bs_msm adv_a adv_b].
      destruct (an =? 0); [destruct (bn =? 0); [reflexivity|apply likes_step]|]. destruct (bn =? 0); [apply likes_step|].
      destruct (nth_error (bs_a (fst s)) (an / 2)) as [x|]; [|exact I].
      destruct (wbsearch _ _ _) as [r s0] eqn:Q.
      assert (HS : forall (l : list (rtree K X)) s r s0, wbsearch (fun (s : bst * E) y => let (s', q) := uhead_cmp u s x y in (s', option_map CompOpp q)) l s = (r, s0) ->
        r = BsPanic \/ (fst s0 = fst s /\ bsearch (fun y : rtree K X => option_map CompOpp (head_cmp kcmp x y)) l = r)).
      { clear -AN. intros l s r s0 Q. pose proof Q as Q'.
        apply (wbsearch_like _ (fun y : rtree K X => option_map CompOpp (head_cmp kcmp x y))) in Q.
        2:{ intros s1 y s2 q H. destruct (uhead_cmp u s1 x y) as [s3 [q3|]] eqn:Qh; [|discriminate]. apply uhead_like in Qh as [_ Qh]. injection H as _ <-.
            now rewrite Qh. }
        destruct Q as [Q|Q]; [now left|]. destruct r as [i|i| |]; [right|right|now left|right]; (split; [|exact Q]);
        unfold wbsearch in Q'; clear Q;
        (assert (Z : forall fuel i j (s s' : bst * E) r, wbs_loop (fun (s : bst * E) y => let (s', q) := uhead_cmp u s x y in (s', option_map CompOpp q)) l fuel i j s = (r, s') -> r <> BsPanic -> fst s' = fst s);
         [|eapply Z; [exact Q'|discriminate]]);
        clear -AN; (induction fuel as [|fuel IH]; intros i j s s' r; cbn [wbs_loop]; [now intros [= <- <-]|]);
        (destruct (i <? j); [|now intros [= <- <-]]); (destruct (nth_error l _) as [y|]; [|intros [= <- <-] H; now destruct H]);
        (destruct (uhead_cmp u s x y) as [s1 [q|]] eqn:Qh; cbn [option_map]; [|intros [= <- <-] H; now destruct H]);
        apply uhead_like in Qh as [Qh _]; rewrite <- Qh; (destruct (CompOpp q); [now intros [= <- <-]|apply IH..]). }
      apply HS in Q. destruct Q as [->|[F Q]]; [exact I|]. rewrite Q.
      destruct r as [i|i| |]; [| |exact I..]; (apply likes_bind; [rewrite <- F; apply IH|]); intros s1;
        (apply likes_bind; [first [apply ucoll_bool_like|apply likes_step]|]); intros s2; apply IH.
    Qed.
    Lemma utape_like : forall fuel s, likes (gtape (uhead_cmp u) O' fuel s) (tape_merge O fuel (fst s)).
    Proof using AN REC.
      induction fuel as [|fuel IH]; intros s; [exact I|]. cbn [gtape tape_merge].
      cbn [uop_bool op_bool mo_a mo_b mo_from_a mo_from_b mo_cmp mo_coll bs_msm adv_a adv_b].
      destruct (bs_a (fst s)) as [|x a], (bs_b (fst s)) as [|y b]; [reflexivity|apply likes_step..|].
      destruct (uhead_cmp u s x y) as [s' [q|]] eqn:Q; [|exact I]. apply uhead_like in Q as [F Q]. rewrite Q, <- F.
      destruct q; (apply likes_bind; [first [apply ucoll_bool_like|apply likes_step]|]); intros s2; apply IH.
    Qed.
    Lemma ubool_like a b e : like (ubool u strat rec' ta a b e) (bs_merge strat O a b).
    Proof using AN REC.
      unfold ubool, bs_merge, gmerge, merge.
      change (mo_a O' (bs_new a b, e)) with a. change (mo_b O' (bs_new a b, e)) with b.
      change (mo_a O (bs_new a b)) with a. change (mo_b O (bs_new a b)) with b.
      destruct (strat _ _).
      - pose proof (utape_like (S (length a + length b)) (bs_new a b, e)) as H. destruct (gtape _ _ _ _); cbn [likes fst] in H; try discriminate;
        rewrite H; apply like_ret.
      - pose proof (ubinary_like (S (length a)) (bs_new a b, e) (length a) (length b)) as H. destruct (gbinary _ _ _ _ _ _); cbn [likes fst] in H; try discriminate;
        rewrite H; apply like_ret.
    Qed.
  End BoolMerge.
  Lemma uany_like {Y} (p : Y -> res bool) (p' : Y -> E -> given_back E bool) : (forall x e, like (p' x e) (p x)) ->
    forall l e, like (uany p' l e) (any_res p l).
  Proof using.
    intros H. induction l as [|x l IH]; intros e; [apply like_ret|]. cbn [uany any_res]. apply like_bind; [apply H|].
    intros [|] e1 _; [apply like_ret|apply IH].
  Qed.
  Lemma uall_like {Y} (p : Y -> res bool) (p' : Y -> E -> given_back E bool) : (forall x e, like (p' x e) (p x)) ->
    forall l e, like (uall p' l e) (all_res p l).
  Proof using.
    intros H. induction l as [|x l IH]; intros e; [apply like_ret|]. cbn [uall all_res]. apply like_bind; [apply H|].
    intros [|] e1 _; [apply IH|apply like_ret].
  Qed.
  Lemma like_negb (r' : given_back E bool) r : like r' r -> like (then_ r' (fun q e => Some (e, Ret (negb q)))) (rmap negb r).
  Proof using.
    intros H. destruct r' as [[e [b|]]|]; cbn [then_]; [|discriminate..]. rewrite (H e b eq_refl). apply like_ret.
  Qed.
  Section Preds.
    Context {V X : Type}.
    Lemma uintersects0_like : forall fuel (l : rtree K V) lp (r : rtree K X) rp e,
      like (uintersects0 u strat fuel l lp r rp e) (intersects0 kcmp strat fuel l lp r rp).
    Proof using AN.
      induction fuel as [|fuel IH]; intros l lp r rp e; [discriminate|]. cbn [uintersects0 intersects0].
      apply ucommon_like. intros e1. set (n := common_prefix kcmp lp rp).
      destruct (n =? length lp), (n =? length rp); cbn [andb].
      - destruct (match t_value l with Some _ => _ | None => _ end); [apply like_ret|]. apply ubool_like. intros a b e2. apply IH.
      - apply uany_like. intros x e2. apply IH.
      - apply uany_like. intros x e2. apply IH.
      - apply like_ret.
    Qed.
    Lemma uis_subset0_like : forall fuel (l : rtree K V) lp (r : rtree K X) rp e,
      like (uis_subset0 u strat fuel l lp r rp e) (is_subset0 kcmp strat fuel l lp r rp).
    Proof using AN.
      induction fuel as [|fuel IH]; intros l lp r rp e; [discriminate|]. cbn [uis_subset0 is_subset0].
      apply ucommon_like. intros e1. set (n := common_prefix kcmp lp rp).
      destruct (n =? length lp), (n =? length rp); cbn [andb].
      - destruct (match t_value l with Some _ => _ | None => _ end); [|apply like_ret].
        apply like_negb. apply ubool_like. intros a b e2. apply like_negb, IH.
      - destruct (t_value l); [apply like_ret|]. apply uall_like. intros x e2. apply IH.
      - apply uany_like. intros x e2. apply IH.
      - apply like_ret.
    Qed.
  End Preds.
End Quest.

(** Renaming the key components and the values of a radix tree. Facts for C132: every operation of
    RadixModel.v commutes with a renaming that keeps the order of key components. *)
From Verif Require Import RadixFacts.

(** the tree with every key component k replaced by [q k] and every value v by [g v] *)
Fixpoint renamed {K K' V V'} (q : K -> K') (g : V -> V') (t : rtree K V) : rtree K' V' :=
  match t with Node p v cs => Node (map q p) (option_map g v) (map (renamed q g) cs) end.

(** ** the merge engine *)
Definition omap {S S'} (h : S -> S') (o : out S) : out S' :=
  match o with Cont s => Cont (h s) | Stop s => Stop (h s) | Panic s => Panic (h s) | NoFuel => NoFuel end.
Lemma omap_bind {S S'} (h : S -> S') o k k' :
  (forall s, k' (h s) = omap h (k s)) -> obind (omap h o) k' = omap h (obind o k).
Proof. intros H. destruct o; cbn [omap obind]; auto. Qed.
Lemma rmap_bind {X X' Y Y'} (f : X -> X') (g : Y -> Y') r k k' :
  (forall x, k' (f x) = rmap g (k x)) -> rbind (rmap f r) k' = rmap g (rbind r k).
Proof. intros H. destruct r; cbn [rmap rbind]; auto. Qed.
Lemma rmap_bind_r {X Y Y'} (g : Y -> Y') (r : res X) k k' :
  (forall x, k' x = rmap g (k x)) -> rbind r k' = rmap g (rbind r k).
Proof. intros H. destruct r; cbn [rmap rbind]; auto. Qed.
Lemma rbind_ext {X Y} (r : res X) (k k' : X -> res Y) : (forall x, k x = k' x) -> rbind r k = rbind r k'.
Proof. intros H. destruct r; cbn [rbind]; auto. Qed.

Lemma bs_loop_map {T T'} (f : T -> T') p p' (l : list T) fuel : (forall x, p' (f x) = p x) ->
  forall lo hi n, bs_loop p' (map f l) fuel lo hi n = bs_loop p l fuel lo hi n.
Proof.
  intros H. induction fuel as [|fuel IH]; intros lo hi n; [reflexivity|]. cbn [bs_loop].
  destruct (lo <? hi); [|reflexivity]. cbv zeta. rewrite nth_error_map.
  destruct (nth_error l _) as [x|]; [|reflexivity]. cbn [option_map]. rewrite H.
  destruct (p x) as [[]|]; auto.
Qed.
Lemma bsearch_map {T T'} (f : T -> T') p p' (l : list T) : (forall x, p' (f x) = p x) ->
  bsearch p' (map f l) = bsearch p l.
Proof. intros H. unfold bsearch, bs_count. rewrite map_length. now rewrite (bs_loop_map f p p'). Qed.

Section Engine.
  Context {S S' A A' B B' : Type} (h : S -> S') (fa : A -> A') (fb : B -> B') (O : mop S A B) (O' : mop S' A' B').
  Context (Ha : forall s, mo_a O' (h s) = map fa (mo_a O s)) (Hb : forall s, mo_b O' (h s) = map fb (mo_b O s))
          (Hc : forall x y, mo_cmp O' (fa x) (fb y) = mo_cmp O x y)
          (Hfa : forall s n, mo_from_a O' (h s) n = omap h (mo_from_a O s n))
          (Hfb : forall s n, mo_from_b O' (h s) n = omap h (mo_from_b O s n))
          (Hk : forall s, mo_coll O' (h s) = omap h (mo_coll O s)).

  Lemma tape_map fuel : forall s, tape_merge O' fuel (h s) = omap h (tape_merge O fuel s).
  Proof using Ha Hb Hc Hfa Hfb Hk.
    induction fuel as [|fuel IH]; intros s; [reflexivity|]. cbn [tape_merge]. rewrite Ha, Hb.
    destruct (mo_a O s) as [|x a], (mo_b O s) as [|y b]; cbn [map]; [reflexivity|..].
    - cbn [length]. rewrite map_length. apply Hfb.
    - cbn [length]. rewrite map_length. apply Hfa.
    - rewrite Hc. destruct (mo_cmp O x y) as [[]|]; [..|reflexivity].
      + rewrite Hk. now apply omap_bind.
      + rewrite Hfa. now apply omap_bind.
      + rewrite Hfb. now apply omap_bind.
  Qed.
  Lemma binary_map fuel : forall s an bn, binary_merge O' fuel (h s) an bn = omap h (binary_merge O fuel s an bn).
  Proof using Ha Hb Hc Hfa Hfb Hk.
    induction fuel as [|fuel IH]; intros s an bn; [reflexivity|]. cbn [binary_merge].
    destruct (an =? 0); [destruct (bn =? 0); [reflexivity|apply Hfb]|].
    destruct (bn =? 0); [apply Hfa|]. cbv zeta. rewrite Ha, Hb, nth_error_map.
    destruct (nth_error (mo_a O s) _) as [x|]; [|reflexivity]. cbn [option_map].
    rewrite firstn_map, (bsearch_map fb (fun y => option_map CompOpp (mo_cmp O x y))) by (intros y; now rewrite Hc).
    destruct (bsearch _ _); [..|reflexivity|reflexivity]; rewrite IH; apply omap_bind; intros s1.
    - rewrite Hk. apply omap_bind. intros s2. apply IH.
    - rewrite Hfa. apply omap_bind. intros s2. apply IH.
  Qed.
  Lemma merge_map strat s : merge O' strat (h s) = omap h (merge O strat s).
  Proof using Ha Hb Hc Hfa Hfb Hk.
    unfold merge. rewrite Ha, Hb, !map_length. cbv zeta.
    destruct (strat _ _); [apply tape_map|apply binary_map].
  Qed.
End Engine.

(** ** the trees *)
Section Rename.
  Context {K K' : Type} (cmp : K -> K -> comparison) (cmp' : K' -> K' -> comparison) (q : K -> K').
  Context (Hq : forall x y, cmp' (q x) (q y) = cmp x y) (strat : nat -> nat -> bool).

  Lemma keqb_q x y : keqb cmp' (q x) (q y) = keqb cmp x y.
  Proof using Hq. unfold keqb. now rewrite Hq. Qed.
  Lemma common_prefix_q a : forall b, common_prefix cmp' (map q a) (map q b) = common_prefix cmp a b.
  Proof using Hq.
    induction a as [|x a IH]; intros [|y b]; cbn [map common_prefix]; try reflexivity.
    rewrite keqb_q, IH. reflexivity.
  Qed.

  Section One.
    Context {V V' : Type} (g : V -> V').
    Notation ren := (renamed q g).
    Lemma ren_prefix t : t_prefix (ren t) = map q (t_prefix t).
    Proof using. now destruct t. Qed.
    Lemma ren_value t : t_value (ren t) = option_map g (t_value t).
    Proof using. now destruct t. Qed.
    Lemma ren_children t : t_children (ren t) = map ren (t_children t).
    Proof using. now destruct t. Qed.
    Lemma ren_empty t : t_is_empty (ren t) = t_is_empty t.
    Proof using. destruct t as [p [v|] [|c cs]]; reflexivity. Qed.
    Lemma ren_size t : t_size (ren t) = t_size t.
    Proof using.
      induction t as [p v cs IH] using rtree_ind'. cbn [renamed t_size]. f_equal.
      rewrite map_map. f_equal. induction IH as [|c cs Hc _ IH]; [reflexivity|]. cbn [map]. now rewrite Hc, IH.
    Qed.
    Lemma ren_split t n : t_split (ren t) n = rmap ren (t_split t n).
    Proof using.
      destruct t as [p v c]. cbn [renamed t_split]. rewrite map_length.
      destruct (n <? length p); [|reflexivity]. cbn [rmap rbind renamed option_map map].
      now rewrite firstn_map, skipn_map.
    Qed.
    Lemma ren_prepend t p : rt_prepend (ren t) (map q p) = ren (rt_prepend t p).
    Proof using.
      unfold rt_prepend. destruct p as [|x p]; [now destruct t|]. cbn [map]. rewrite ren_empty.
      destruct t as [p1 v c]. cbn [renamed]. destruct (t_is_empty _); [reflexivity|].
      cbn [renamed]. rewrite map_app. reflexivity.
    Qed.
    Lemma filter_ren l : filter (fun x => negb (t_is_empty x)) (map ren l) = map ren (filter (fun x => negb (t_is_empty x)) l).
    Proof using.
      induction l as [|c l IH]; [reflexivity|]. cbn [map filter]. rewrite ren_empty, IH. now destruct (t_is_empty c).
    Qed.
    Lemma ren_unsplit t : t_unsplit (ren t) = ren (t_unsplit t).
    Proof using.
      assert (G : forall t1, (let 'Node _ v1 c1 := ren t1 in if t_is_empty (ren t1) then Node [] v1 c1 else ren t1) =
        ren (let 'Node _ v1 c1 := t1 in if t_is_empty t1 then Node [] v1 c1 else t1)).
      { intros t1. rewrite ren_empty. destruct t1 as [p1 v1 c1]. now destruct (t_is_empty _). }
      destruct t as [p v c]. unfold t_unsplit. cbn [renamed]. rewrite filter_ren.
      set (c' := filter _ c). specialize (G (match v, c' with None, [child] => rt_prepend child p | _, _ => Node p v c' end)).
      cbv zeta. rewrite <- G. clear G.
      assert (Q : match option_map g v, map ren c' with None, [child] => rt_prepend child (map q p) | _, _ => Node (map q p) (option_map g v) (map ren c') end
        = ren (match v, c' with None, [child] => rt_prepend child p | _, _ => Node p v c' end)).
      { destruct v as [v|]; [reflexivity|]. destruct c' as [|x [|y c']]; try reflexivity. apply ren_prepend. }
      now rewrite Q.
    Qed.
    Lemma ren_mat_short t : forall n, mat_short (ren t) n = rmap ren (mat_short t n).
    Proof using.
      induction t as [p v cs IH] using rtree_ind'. intros n. cbn [renamed mat_short]. rewrite map_length.
      destruct (n <? length p); [|reflexivity].
      enough (Q : (fix go (l : list (rtree K' V')) : res (list (rtree K' V')) :=
          match l with
          | [] => Ok []
          | x :: l' => rbind (mat_short x 0) (fun x' => rbind (go l') (fun l'' => Ok (x' :: l'')))
          end) (map ren cs) = rmap (map ren) ((fix go (l : list (rtree K V)) : res (list (rtree K V)) :=
          match l with
          | [] => Ok []
          | x :: l' => rbind (mat_short x 0) (fun x' => rbind (go l') (fun l'' => Ok (x' :: l'')))
          end) cs)).
      { rewrite Q. apply rmap_bind. intros c'. cbn [rmap rbind renamed]. now rewrite skipn_map. }
      induction IH as [|c cs Hc _ IH]; [reflexivity|]. cbn [map]. rewrite Hc. apply rmap_bind. intros x'.
      rewrite IH. now apply rmap_bind.
    Qed.
    Lemma ren_mat_all l : mat_all (map ren l) = rmap (map ren) (mat_all l).
    Proof using.
      induction l as [|c l IH]; [reflexivity|]. cbn [map mat_all]. rewrite ren_mat_short. apply rmap_bind. intros x'.
      rewrite IH. now apply rmap_bind.
    Qed.
    Lemma ren_mat_conv t : mat_conv (ren t) = option_map ren (mat_conv t).
    Proof using. unfold mat_conv. rewrite ren_mat_short. now destruct (mat_short t 0). Qed.
    Lemma ren_has_head t : has_head (ren t) = has_head t.
    Proof using. unfold has_head. rewrite ren_prefix. now destruct (t_prefix t). Qed.
    Lemma forallb_ren (p p' : rtree K' V' -> bool) (p0 : rtree K V -> bool) l :
      (forall t, p (ren t) = p0 t) -> forallb p (map ren l) = forallb p0 l.
    Proof using. intros H. induction l as [|c l IH]; [reflexivity|]. cbn [map forallb]. now rewrite H, IH. Qed.
  End One.

  Lemma head_cmp_ren {V V' W W'} (g : V -> V') (h : W -> W') a b :
    head_cmp cmp' (renamed q g a) (renamed q h b) = head_cmp cmp a b.
  Proof using Hq.
    unfold head_cmp. rewrite !ren_prefix. destruct (t_prefix a), (t_prefix b); cbn [map]; try reflexivity.
    now rewrite Hq.
  Qed.
  Lemma sort_heads_ren {V V'} (g : V -> V') l :
    sort_heads cmp' (map (renamed q g) l) = rmap (map (renamed q g)) (sort_heads cmp l).
  Proof using Hq.
    unfold sort_heads. rewrite map_length, (forallb_ren g has_head has_head has_head) by apply ren_has_head.
    destruct (_ || _); [|reflexivity]. cbn [rmap rbind]. f_equal.
    assert (Hi : forall x l, sort_insert (head_ord cmp') (renamed q g x) (map (renamed q g) l) =
      map (renamed q g) (sort_insert (head_ord cmp) x l)).
    { intros x m. induction m as [|y m IH]; [reflexivity|]. cbn [map sort_insert].
      unfold head_ord at 1 3. rewrite head_cmp_ren. destruct (head_cmp cmp x y) as [[]|]; cbn [map]; now rewrite ?IH. }
    unfold sort_by. induction l as [|x l IH]; [reflexivity|]. cbn [map fold_right]. now rewrite IH, Hi.
  Qed.

  (** in-place merges of children *)
  Section Ops.
    Context {V V' W W' : Type} (g : V -> V') (h : W -> W').
    Notation ra := (renamed q g).
    Notation rb := (renamed q h).
    Definition bmap {A A'} (f : A -> A') (b : builder A) : builder A' :=
      MkB (map f (bd_tgt b)) (map f (bd_src b)) (map f (bd_drop b)).
    Definition iprmap (m : iprstate (rtree K V) (rtree K W)) : iprstate (rtree K' V') (rtree K' W') :=
      MkIpr (bmap ra (ipr_a m)) (map rb (ipr_b m)).
    Definition vsmap (m : vstate (rtree K V) (rtree K W) (rtree K V)) : vstate (rtree K' V') (rtree K' W') (rtree K' V') :=
      MkVs (map ra (vs_a m)) (map rb (vs_b m)) (map ra (vs_r m)).
    Definition bsmap (m : bstate (rtree K V) (rtree K W)) : bstate (rtree K' V') (rtree K' W') :=
      MkBs (map ra (bs_a m)) (map rb (bs_b m)) (bs_r m).
    Context (rec : rtree K V -> rtree K W -> res (rtree K V)) (rec' : rtree K' V' -> rtree K' W' -> res (rtree K' V'))
            (Hrec : forall a b, rec' (ra a) (rb b) = rmap ra (rec a b)).

    Lemma bd_consume_map bd n take : bd_consume (bmap ra bd) n take = bmap ra (bd_consume bd n take).
    Proof using.
      unfold bd_consume, bmap. destruct take; cbn [bd_tgt bd_src bd_drop]; rewrite ?map_app, ?skipn_map, ?firstn_map; reflexivity.
    Qed.
    Lemma ipr_adv_a_map s n take : ipr_adv_a (iprmap s) n take = omap iprmap (ipr_adv_a s n take).
    Proof using. unfold ipr_adv_a. cbn [omap]. unfold iprmap at 1 3. cbn [ipr_a ipr_b]. now rewrite bd_consume_map. Qed.
    Lemma bd_extend_map conv conv' : (forall y, conv' (rb y) = option_map ra (conv y)) ->
      forall n bd b, bd_extend conv' n (bmap ra bd) (map rb b) =
        let '(x, y, ok) := bd_extend conv n bd b in (bmap ra x, map rb y, ok).
    Proof using.
      intros Hcv. induction n as [|n IH]; intros bd b; [reflexivity|]. cbn [bd_extend].
      destruct b as [|y b]; [reflexivity|]. cbn [map]. rewrite Hcv. destruct (conv y) as [x|]; [|reflexivity].
      cbn [option_map]. rewrite <- IH. f_equal. unfold bd_push, bmap. cbn [bd_tgt bd_src bd_drop]. now rewrite map_app.
    Qed.
    Lemma ipr_adv_b_map conv conv' s n take : (forall y, conv' (rb y) = option_map ra (conv y)) ->
      ipr_adv_b conv' (iprmap s) n take = omap iprmap (ipr_adv_b conv s n take).
    Proof using.
      intros Hcv. unfold ipr_adv_b. destruct take.
      - unfold iprmap at 1 2. cbn [ipr_a ipr_b]. rewrite (bd_extend_map conv conv' Hcv).
        destruct (bd_extend conv n (ipr_a s) (ipr_b s)) as [[x y] ok]. now destruct ok.
      - cbn [omap]. unfold iprmap. cbn [ipr_a ipr_b]. now rewrite skipn_map.
    Qed.
    Lemma coll_with_map conv conv' s : (forall y, conv' (rb y) = option_map ra (conv y)) ->
      coll_with rec' conv' (iprmap s) = omap iprmap (coll_with rec conv s).
    Proof using Hrec.
      intros Hcv. unfold coll_with. cbn [iprmap ipr_a ipr_b bmap bd_src].
      destruct (bd_src (ipr_a s)) as [|av a'] eqn:Ea; [reflexivity|]. cbn [map].
      destruct (ipr_b s) as [|bv b'] eqn:Eb; [reflexivity|]. cbn [map].
      rewrite Hrec. destruct (rec av bv) as [av'| |]; [|cbn [rmap rbind omap]; unfold iprmap, bmap; now rewrite Ea, Eb|reflexivity].
      cbn [rmap rbind]. cbv zeta. rewrite ren_empty. cbn [bd_tgt bd_drop]. unfold ipr_msm. cbn [adv_a adv_b].
      change (MkIpr _ _) with (iprmap (MkIpr (MkB (bd_tgt (ipr_a s)) (av' :: a') (bd_drop (ipr_a s))) (bv :: b'))) at 1.
      rewrite ipr_adv_a_map. apply omap_bind. intros s1. now apply ipr_adv_b_map.
    Qed.
    Lemma children_with_map ta tb conv conv' a b : (forall y, conv' (rb y) = option_map ra (conv y)) ->
      children_with cmp' strat rec' ta tb conv' (map ra a) (map rb b) = rmap (map ra) (children_with cmp strat rec ta tb conv a b).
    Proof using Hq Hrec.
      intros Hcv. unfold children_with, ipr_merge.
      assert (Q : merge (op_with cmp' rec' ta tb conv') strat (ipr_new (map ra a) (map rb b)) =
        omap iprmap (merge (op_with cmp rec ta tb conv) strat (ipr_new a b))).
      { change (ipr_new (map ra a) (map rb b)) with (iprmap (ipr_new a b)).
        apply (merge_map iprmap ra rb); cbn [op_with mo_a mo_b mo_cmp mo_from_a mo_from_b mo_coll]; try reflexivity.
        - intros x y. apply head_cmp_ren.
        - intros s n. apply ipr_adv_a_map.
        - intros s n. now apply ipr_adv_b_map.
        - intros s. now apply coll_with_map. }
      rewrite Q. now destruct (merge _ strat (ipr_new a b)).
    Qed.

    (** pure merges of children *)
    Lemma push_all_map {X X'} (f : X -> X') conv conv' l : (forall y, conv' (f y) = option_map ra (conv y)) ->
      forall r, push_all conv' (map f l) (map ra r) = let '(x, ok) := push_all conv l r in (map ra x, ok).
    Proof using.
      intros Hcv. induction l as [|y l IH]; intros r; [reflexivity|]. cbn [map push_all]. rewrite Hcv.
      destruct (conv y) as [x|]; [|reflexivity]. cbn [option_map]. rewrite <- IH. now rewrite map_app.
    Qed.
    Lemma take_front_map {X X'} (f : X -> X') l n :
      si_take_front (map f l) n = option_map (fun p => (map f (fst p), map f (snd p))) (si_take_front l n).
    Proof using. unfold si_take_front. rewrite map_length. destruct (n <=? length l); [|reflexivity]. cbn. now rewrite firstn_map, skipn_map. Qed.
    Lemma drop_front_map {X X'} (f : X -> X') l n : si_drop_front (map f l) n = option_map (map f) (si_drop_front l n).
    Proof using. unfold si_drop_front. rewrite map_length. destruct (n <=? length l); [|reflexivity]. cbn. now rewrite skipn_map. Qed.
    Lemma vs_adv_a_map ca ca' s n take : (forall y, ca' (ra y) = option_map ra (ca y)) ->
      vs_adv_a ca' (vsmap s) n take = omap vsmap (vs_adv_a ca s n take).
    Proof using.
      intros Hcv. unfold vs_adv_a. cbn [vsmap vs_a vs_b vs_r]. destruct take.
      - rewrite take_front_map. destruct (si_take_front (vs_a s) n) as [[x t]|]; [|reflexivity]. cbn [option_map fst snd].
        rewrite (push_all_map ra ca ca' x Hcv). destruct (push_all ca x (vs_r s)) as [r []]; reflexivity.
      - rewrite drop_front_map. now destruct (si_drop_front (vs_a s) n).
    Qed.
    Lemma vs_adv_b_map cb cb' s n take : (forall y, cb' (rb y) = option_map ra (cb y)) ->
      vs_adv_b cb' (vsmap s) n take = omap vsmap (vs_adv_b cb s n take).
    Proof using.
      intros Hcv. unfold vs_adv_b. cbn [vsmap vs_a vs_b vs_r]. destruct take.
      - rewrite take_front_map. destruct (si_take_front (vs_b s) n) as [[x t]|]; [|reflexivity]. cbn [option_map fst snd].
        rewrite (push_all_map rb cb cb' x Hcv). destruct (push_all cb x (vs_r s)) as [r []]; reflexivity.
      - rewrite drop_front_map. now destruct (si_drop_front (vs_b s) n).
    Qed.
    Lemma coll_pure_map s : coll_pure rec' (vsmap s) = omap vsmap (coll_pure rec s).
    Proof using Hrec.
      unfold coll_pure. cbn [vsmap vs_a vs_b vs_r].
      destruct (vs_a s) as [|x a] eqn:Ea; cbn [map]; [now destruct s|].
      destruct (vs_b s) as [|y b] eqn:Eb; cbn [map]; [cbn [omap]; unfold vsmap; now rewrite Ea, Eb|].
      rewrite Hrec. destruct (rec x y) as [r| |]; cbn [rmap rbind omap]; [|reflexivity..].
      rewrite ren_empty. unfold vsmap. cbn [vs_a vs_b vs_r]. destruct (t_is_empty r); [reflexivity|]. now rewrite map_app.
    Qed.
    Lemma children_pure_map ta tb ca ca' cb cb' a b :
      (forall y, ca' (ra y) = option_map ra (ca y)) -> (forall y, cb' (rb y) = option_map ra (cb y)) ->
      children_pure cmp' strat rec' ta tb ca' cb' (map ra a) (map rb b) =
      rmap (map ra) (children_pure cmp strat rec ta tb ca cb a b).
    Proof using Hq Hrec.
      intros Hca Hcb. unfold children_pure, vs_merge.
      assert (Q : merge (op_pure cmp' rec' ta tb ca' cb') strat (vs_new (map ra a) (map rb b)) =
        omap vsmap (merge (op_pure cmp rec ta tb ca cb) strat (vs_new a b))).
      { change (vs_new (map ra a) (map rb b)) with (vsmap (vs_new a b)).
        apply (merge_map vsmap ra rb); cbn [op_pure mo_a mo_b mo_cmp mo_from_a mo_from_b mo_coll]; try reflexivity.
        - intros x y. apply head_cmp_ren.
        - intros s n. now apply vs_adv_a_map.
        - intros s n. now apply vs_adv_b_map.
        - intros s. apply coll_pure_map. }
      rewrite Q. now destruct (merge _ strat (vs_new a b)).
    Qed.

    (** merges that only ask *)
    Context (brec : rtree K V -> rtree K W -> res bool) (brec' : rtree K' V' -> rtree K' W' -> res bool)
            (Hbrec : forall a b, brec' (ra a) (rb b) = brec a b).
    Lemma bs_adv_a_map s n take : bs_adv_a (bsmap s) n take = omap bsmap (bs_adv_a s n take).
    Proof using.
      unfold bs_adv_a. cbn [bsmap bs_a bs_b bs_r]. destruct take; [reflexivity|].
      rewrite drop_front_map. now destruct (si_drop_front (bs_a s) n).
    Qed.
    Lemma bs_adv_b_map s n take : bs_adv_b (bsmap s) n take = omap bsmap (bs_adv_b s n take).
    Proof using.
      unfold bs_adv_b. cbn [bsmap bs_a bs_b bs_r]. destruct take; [reflexivity|].
      rewrite drop_front_map. now destruct (si_drop_front (bs_b s) n).
    Qed.
    Lemma bool_merge_map ta a b :
      bs_merge strat (op_bool cmp' brec' ta) (map ra a) (map rb b) = bs_merge strat (op_bool cmp brec ta) a b.
    Proof using Hq Hbrec.
      unfold bs_merge.
      assert (Q : merge (op_bool cmp' brec' ta) strat (bs_new (map ra a) (map rb b)) =
        omap bsmap (merge (op_bool cmp brec ta) strat (bs_new a b))).
      { change (bs_new (map ra a) (map rb b)) with (bsmap (bs_new a b)).
        apply (merge_map bsmap ra rb); cbn [op_bool mo_a mo_b mo_cmp mo_from_a mo_from_b mo_coll]; try reflexivity.
        - intros x y. apply head_cmp_ren.
        - intros s n. apply bs_adv_a_map.
        - intros s n. apply bs_adv_b_map.
        - intros s. unfold coll_bool. cbn [bsmap bs_a bs_b].
          destruct (bs_a s) as [|x xs] eqn:Ea; cbn [map]; [reflexivity|].
          destruct (bs_b s) as [|y ys] eqn:Eb; cbn [map]; [reflexivity|].
          rewrite Hbrec. destruct (brec x y) as [take| |]; [|reflexivity..].
          unfold bs_msm. cbn [adv_a adv_b]. rewrite bs_adv_a_map. apply omap_bind.
          intros s1. apply bs_adv_b_map. }
      rewrite Q. now destruct (merge _ strat (bs_new a b)).
    Qed.
  End Ops.
End Rename.

(** ** the operations *)
Section Operations.
  Context {K K' : Type} (cmp : K -> K -> comparison) (cmp' : K' -> K' -> comparison) (q : K -> K').
  Context (Hq : forall x y, cmp' (q x) (q y) = cmp x y) (strat : nat -> nat -> bool).
  Ltac norm := rewrite ?ren_prefix, ?ren_value, ?ren_children.
  Ltac single := repeat match goal with |- context [ [renamed ?q ?g ?t] ] => change [renamed q g t] with (map (renamed q g) [t]) end.
  (** the body of a combination: both sides take the same branch and make the same calls *)
  Ltac body HC Hv :=
    norm; rewrite ?(common_prefix_q cmp cmp' q Hq), ?map_length; cbv zeta;
    match goal with |- rbind ?x' _ = rmap ?r (rbind ?x _) =>
      let Q := fresh in assert (Q : x' = rmap r x);
      [|rewrite Q; apply rmap_bind; intros; cbn [rmap rbind]; now rewrite ren_unsplit] end;
    rewrite ?Hv;
    repeat match goal with
    | |- (if ?c then _ else _) = _ => destruct c
    | |- rbind (mat_short _ _) _ = _ => rewrite ren_mat_short; apply rmap_bind; intros ?
    | |- rbind (mat_all _) _ = _ => rewrite ren_mat_all; apply rmap_bind; intros ?
    | |- rbind (t_split _ _) _ = _ => rewrite ren_split; apply rmap_bind; intros ?
    | |- rbind (sort_heads _ _) _ = _ => norm; single; rewrite <- ?map_app; rewrite (sort_heads_ren cmp cmp' q Hq); apply rmap_bind; intros ?
    | |- rbind (children_with _ _ _ _ _ _ _ _) _ = _ => norm; single; rewrite HC; apply rmap_bind; intros ?
    | |- rbind (children_pure _ _ _ _ _ _ _ _ _) _ = _ => norm; single; rewrite HC; apply rmap_bind; intros ?
    | |- Ok _ = rmap _ (Ok _) => cbn [rmap rbind renamed map]; norm; rewrite ?Hv, ?firstn_map; reflexivity
    end.

  Section Two.
    Context {V V' W W' : Type} (g : V -> V') (h : W -> W').
    Notation ra := (renamed q g).
    Notation rb := (renamed q h).

    Section With.
      Context (f : V -> W -> V * bool) (f' : V' -> W' -> V' * bool)
              (Hf : forall v w, f' (g v) (h w) = (g (fst (f v w)), snd (f v w))).
      Lemma upd_inner_map v w : upd_inner f' (option_map g v) (option_map h w) = option_map g (upd_inner f v w).
      Proof using Hf. destruct v, w; cbn; try reflexivity. rewrite Hf. now destruct (f v w) as [x []]. Qed.
      Lemma upd_left_map v w : upd_left f' (option_map g v) (option_map h w) = option_map g (upd_left f v w).
      Proof using Hf. destruct v, w; cbn; try reflexivity. rewrite Hf. now destruct (f v w) as [x []]. Qed.
      Lemma inner_with_map fuel : forall a b, inner_with cmp' strat f' fuel (ra a) (rb b) = rmap ra (inner_with cmp strat f fuel a b).
      Proof using Hq Hf.
        induction fuel as [|fuel IH]; intros a b; [reflexivity|]. cbn [inner_with].
        assert (HC : forall a b, children_with cmp' strat (inner_with cmp' strat f' fuel) false false NoConverter (map ra a) (map rb b) =
          rmap (map ra) (children_with cmp strat (inner_with cmp strat f fuel) false false NoConverter a b))
          by (intros x y; now apply (children_with_map cmp cmp' q Hq)).
        body HC upd_inner_map.
      Qed.
      Lemma left_with_map fuel : forall a b, left_with cmp' strat f' fuel (ra a) (rb b) = rmap ra (left_with cmp strat f fuel a b).
      Proof using Hq Hf.
        induction fuel as [|fuel IH]; intros a b; [reflexivity|]. cbn [left_with].
        assert (HC : forall a b, children_with cmp' strat (left_with cmp' strat f' fuel) true false NoConverter (map ra a) (map rb b) =
          rmap (map ra) (children_with cmp strat (left_with cmp strat f fuel) true false NoConverter a b))
          by (intros x y; now apply (children_with_map cmp cmp' q Hq)).
        body HC upd_left_map.
      Qed.
    End With.
    Lemma rt_inner_with_map f f' a b : (forall v w, f' (g v) (h w) = (g (fst (f v w)), snd (f v w))) ->
      rt_inner_combine_with cmp' strat f' (ra a) (rb b) = rmap ra (rt_inner_combine_with cmp strat f a b).
    Proof using Hq. intros Hf. unfold rt_inner_combine_with. rewrite !ren_size. now apply inner_with_map. Qed.
    Lemma rt_left_with_map f f' a b : (forall v w, f' (g v) (h w) = (g (fst (f v w)), snd (f v w))) ->
      rt_left_combine_with cmp' strat f' (ra a) (rb b) = rmap ra (rt_left_combine_with cmp strat f a b).
    Proof using Hq. intros Hf. unfold rt_left_combine_with. rewrite !ren_size. now apply left_with_map. Qed.

    Section Prefix.
      Context (f : W -> bool) (f' : W' -> bool) (Hf : forall w, f' (h w) = f w).
      Lemma hit_map w : hit f' (option_map h w) = hit f w.
      Proof using Hf. destruct w; cbn; auto. Qed.
      Lemma remove_with_map fuel : forall a b, remove_with cmp' strat f' fuel (ra a) (rb b) = rmap ra (remove_with cmp strat f fuel a b).
      Proof using Hq Hf.
        induction fuel as [|fuel IH]; intros a b; [reflexivity|]. cbn [remove_with].
        assert (HC : forall a b, children_with cmp' strat (remove_with cmp' strat f' fuel) true false NoConverter (map ra a) (map rb b) =
          rmap (map ra) (children_with cmp strat (remove_with cmp strat f fuel) true false NoConverter a b))
          by (intros x y; now apply (children_with_map cmp cmp' q Hq)).
        body HC hit_map.
      Qed.
      Lemma retain_with_map fuel : forall a b, retain_with cmp' strat f' fuel (ra a) (rb b) = rmap ra (retain_with cmp strat f fuel a b).
      Proof using Hq Hf.
        induction fuel as [|fuel IH]; intros a b; [reflexivity|]. cbn [retain_with].
        assert (HC : forall a b, children_with cmp' strat (retain_with cmp' strat f' fuel) false false NoConverter (map ra a) (map rb b) =
          rmap (map ra) (children_with cmp strat (retain_with cmp strat f fuel) false false NoConverter a b))
          by (intros x y; now apply (children_with_map cmp cmp' q Hq)).
        body HC hit_map.
      Qed.
    End Prefix.
    Lemma rt_remove_map f f' a b : (forall w, f' (h w) = f w) ->
      rt_remove_prefix_with cmp' strat f' (ra a) (rb b) = rmap ra (rt_remove_prefix_with cmp strat f a b).
    Proof using Hq. intros Hf. unfold rt_remove_prefix_with. rewrite !ren_size. now apply remove_with_map. Qed.
    Lemma rt_retain_map f f' a b : (forall w, f' (h w) = f w) ->
      rt_retain_prefix_with cmp' strat f' (ra a) (rb b) = rmap ra (rt_retain_prefix_with cmp strat f a b).
    Proof using Hq. intros Hf. unfold rt_retain_prefix_with. rewrite !ren_size. now apply retain_with_map. Qed.

    Section InnerPure.
      Context (f : V -> W -> option V) (f' : V' -> W' -> option V') (Hf : forall v w, f' (g v) (h w) = option_map g (f v w)).
      Lemma val_inner_map v w : val_inner f' (option_map g v) (option_map h w) = option_map g (val_inner f v w).
      Proof using Hf. destruct v, w; cbn; auto. Qed.
      Lemma inner_pure_map fuel : forall a b, inner_pure cmp' strat f' fuel (ra a) (rb b) = rmap ra (inner_pure cmp strat f fuel a b).
      Proof using Hq Hf.
        induction fuel as [|fuel IH]; intros a b; [reflexivity|]. cbn [inner_pure].
        assert (HC : forall a b, children_pure cmp' strat (inner_pure cmp' strat f' fuel) false false mat_conv NoConverter (map ra a) (map rb b) =
          rmap (map ra) (children_pure cmp strat (inner_pure cmp strat f fuel) false false mat_conv NoConverter a b))
          by (intros x y; apply (children_pure_map cmp cmp' q Hq); auto using ren_mat_conv).
        body HC val_inner_map.
      Qed.
    End InnerPure.
    Section LeftPure.
      Context (f : V -> option W -> option V) (f' : V' -> option W' -> option V')
              (Hf : forall v w, f' (g v) (option_map h w) = option_map g (f v w)).
      Lemma val_left_map v w : val_left f' (option_map g v) (option_map h w) = option_map g (val_left f v w).
      Proof using Hf. destruct v; cbn; auto. Qed.
      Lemma left_pure_map fuel : forall a b, left_pure cmp' strat f' fuel (ra a) (rb b) = rmap ra (left_pure cmp strat f fuel a b).
      Proof using Hq Hf.
        induction fuel as [|fuel IH]; intros a b; [reflexivity|]. cbn [left_pure].
        assert (HC : forall a b, children_pure cmp' strat (left_pure cmp' strat f' fuel) true false mat_conv NoConverter (map ra a) (map rb b) =
          rmap (map ra) (children_pure cmp strat (left_pure cmp strat f fuel) true false mat_conv NoConverter a b))
          by (intros x y; apply (children_pure_map cmp cmp' q Hq); auto using ren_mat_conv).
        body HC val_left_map.
      Qed.
    End LeftPure.
    Lemma rt_inner_map f f' a b : (forall v w, f' (g v) (h w) = option_map g (f v w)) ->
      rt_inner_combine cmp' strat f' (ra a) (rb b) = rmap ra (rt_inner_combine cmp strat f a b).
    Proof using Hq. intros Hf. unfold rt_inner_combine. rewrite !ren_size. now apply inner_pure_map. Qed.
    Lemma rt_left_map f f' a b : (forall v w, f' (g v) (option_map h w) = option_map g (f v w)) ->
      rt_left_combine cmp' strat f' (ra a) (rb b) = rmap ra (rt_left_combine cmp strat f a b).
    Proof using Hq. intros Hf. unfold rt_left_combine. rewrite !ren_size. now apply left_pure_map. Qed.

    (** predicates *)
    Lemma any_res_map {X X'} (r : X -> X') (p : X -> res bool) (p' : X' -> res bool) l :
      (forall x, p' (r x) = p x) -> any_res p' (map r l) = any_res p l.
    Proof using. intros H. induction l as [|x l IH]; [reflexivity|]. cbn [map any_res]. rewrite H. apply rbind_ext. intros []; auto. Qed.
    Lemma all_res_map {X X'} (r : X -> X') (p : X -> res bool) (p' : X' -> res bool) l :
      (forall x, p' (r x) = p x) -> all_res p' (map r l) = all_res p l.
    Proof using. intros H. induction l as [|x l IH]; [reflexivity|]. cbn [map all_res]. rewrite H. apply rbind_ext. intros []; auto. Qed.
    Lemma intersects0_map fuel : forall a ap b bp,
      intersects0 cmp' strat fuel (ra a) (map q ap) (rb b) (map q bp) = intersects0 cmp strat fuel a ap b bp.
    Proof using Hq.
      induction fuel as [|fuel IH]; intros a ap b bp; [reflexivity|]. cbn [intersects0].
      rewrite (common_prefix_q cmp cmp' q Hq), !map_length, !ren_value, !ren_children. cbv zeta.
      destruct (_ && _); [|destruct (_ =? length ap); [|destruct (_ =? length bp); [|reflexivity]]].
      - rewrite (bool_merge_map cmp cmp' q Hq strat g h (fun a b => intersects0 cmp strat fuel a (t_prefix a) b (t_prefix b)))
          by (intros x y; rewrite !ren_prefix; apply IH).
        destruct (t_value a), (t_value b); reflexivity.
      - apply any_res_map. intros x. rewrite ren_prefix, skipn_map. apply IH.
      - apply any_res_map. intros x. rewrite ren_prefix, skipn_map. apply IH.
    Qed.
    Lemma is_subset0_map fuel : forall a ap b bp,
      is_subset0 cmp' strat fuel (ra a) (map q ap) (rb b) (map q bp) = is_subset0 cmp strat fuel a ap b bp.
    Proof using Hq.
      induction fuel as [|fuel IH]; intros a ap b bp; [reflexivity|]. cbn [is_subset0].
      rewrite (common_prefix_q cmp cmp' q Hq), !map_length, !ren_value, !ren_children. cbv zeta.
      destruct (_ && _); [|destruct (_ =? length ap); [|destruct (_ =? length bp); [|reflexivity]]].
      - rewrite (bool_merge_map cmp cmp' q Hq strat g h (fun a b => rmap negb (is_subset0 cmp strat fuel a (t_prefix a) b (t_prefix b))))
          by (intros x y; rewrite !ren_prefix; now rewrite IH).
        destruct (t_value a), (t_value b); reflexivity.
      - destruct (t_value a); [reflexivity|]. cbn [option_map]. apply all_res_map. intros x. rewrite ren_prefix, skipn_map. apply IH.
      - apply any_res_map. intros x. rewrite ren_prefix, skipn_map. apply IH.
    Qed.
    Lemma rt_intersects_map a b : rt_intersects cmp' strat (ra a) (rb b) = rt_intersects cmp strat a b.
    Proof using Hq. unfold rt_intersects. rewrite !ren_size, !ren_prefix. apply intersects0_map. Qed.
    Lemma rt_is_subset_map a b : rt_is_subset cmp' strat (ra a) (rb b) = rt_is_subset cmp strat a b.
    Proof using Hq. unfold rt_is_subset. rewrite !ren_size, !ren_prefix. apply is_subset0_map. Qed.
  End Two.

  Section One.
    Context {V V' : Type} (g : V -> V').
    Notation ra := (renamed q g).
    Section OuterWith.
      Context (f : V -> V -> V * bool) (f' : V' -> V' -> V' * bool)
              (Hf : forall v w, f' (g v) (g w) = (g (fst (f v w)), snd (f v w))).
      Lemma upd_outer_map v w : upd_outer f' (option_map g v) (option_map g w) = option_map g (upd_outer f v w).
      Proof using Hf. destruct v as [v|], w as [w|]; cbn; try reflexivity. rewrite Hf. now destruct (f v w) as [x []]. Qed.
      Lemma outer_with_map fuel : forall a b, outer_with cmp' strat f' fuel (ra a) (ra b) = rmap ra (outer_with cmp strat f fuel a b).
      Proof using Hq Hf.
        induction fuel as [|fuel IH]; intros a b; [reflexivity|]. cbn [outer_with].
        assert (HC : forall a b, children_with cmp' strat (outer_with cmp' strat f' fuel) true true mat_conv (map ra a) (map ra b) =
          rmap (map ra) (children_with cmp strat (outer_with cmp strat f fuel) true true mat_conv a b))
          by (intros x y; apply (children_with_map cmp cmp' q Hq); auto using ren_mat_conv).
        body HC upd_outer_map.
      Qed.
    End OuterWith.
    Lemma rt_outer_with_map f f' a b : (forall v w, f' (g v) (g w) = (g (fst (f v w)), snd (f v w))) ->
      rt_outer_combine_with cmp' strat f' (ra a) (ra b) = rmap ra (rt_outer_combine_with cmp strat f a b).
    Proof using Hq. intros Hf. unfold rt_outer_combine_with. rewrite !ren_size. now apply outer_with_map. Qed.
    Section OuterPure.
      Context (f : V -> V -> option V) (f' : V' -> V' -> option V') (Hf : forall v w, f' (g v) (g w) = option_map g (f v w)).
      Lemma val_outer_map v w : val_outer f' (option_map g v) (option_map g w) = option_map g (val_outer f v w).
      Proof using Hf. destruct v as [v|], w as [w|]; cbn; auto. Qed.
      Lemma outer_pure_map fuel : forall a b, outer_pure cmp' strat f' fuel (ra a) (ra b) = rmap ra (outer_pure cmp strat f fuel a b).
      Proof using Hq Hf.
        induction fuel as [|fuel IH]; intros a b; [reflexivity|]. cbn [outer_pure].
        assert (HC : forall a b, children_pure cmp' strat (outer_pure cmp' strat f' fuel) true true mat_conv mat_conv (map ra a) (map ra b) =
          rmap (map ra) (children_pure cmp strat (outer_pure cmp strat f fuel) true true mat_conv mat_conv a b))
          by (intros x y; apply (children_pure_map cmp cmp' q Hq); auto using ren_mat_conv).
        body HC val_outer_map.
        change [renamed q g x; renamed q g x0] with (map ra [x; x0]). rewrite (sort_heads_ren cmp cmp' q Hq).
        apply rmap_bind. intros c. cbn [rmap rbind renamed map]. norm. now rewrite firstn_map.
      Qed.
    End OuterPure.
    Lemma rt_outer_map f f' a b : (forall v w, f' (g v) (g w) = option_map g (f v w)) ->
      rt_outer_combine cmp' strat f' (ra a) (ra b) = rmap ra (rt_outer_combine cmp strat f a b).
    Proof using Hq. intros Hf. unfold rt_outer_combine. rewrite !ren_size. now apply outer_pure_map. Qed.

    Lemma rt_insert_map t k v : rt_insert cmp' strat (ra t) (map q k) (g v) = rmap ra (rt_insert cmp strat t k v).
    Proof using Hq.
      unfold rt_insert. change (rt_single (map q k) (g v)) with (ra (rt_single k v)).
      now apply rt_outer_with_map.
    Qed.
    Lemma rt_insert_all_map l : forall t,
      rt_insert_all cmp' strat (ra t) (map (fun e => (map q (fst e), g (snd e))) l) = rmap ra (rt_insert_all cmp strat t l).
    Proof using Hq.
      induction l as [|[k v] l IH]; intros t; [reflexivity|]. cbn [map rt_insert_all fst snd].
      rewrite rt_insert_map. now apply rmap_bind.
    Qed.

    (** lookups *)
    Definition frmap (r : @find_result K V) : @find_result K' V' :=
      match r with Found t => Found (ra t) | FPrefix t n => FPrefix (ra t) n | NotFound t n m => NotFound (ra t) n m end.
    Lemma find_loop_map fuel : forall t k, find_loop cmp' fuel (ra t) (map q k) = rmap frmap (find_loop cmp fuel t k).
    Proof using Hq.
      induction fuel as [|fuel IH]; intros t k; [reflexivity|]. cbn [find_loop].
      rewrite ren_prefix, (common_prefix_q cmp cmp' q Hq), !map_length. cbv zeta.
      destruct (_ && _); [reflexivity|]. destruct (length k - _ =? 0); [reflexivity|].
      destruct (_ =? 0); [|reflexivity]. rewrite nth_error_map. destruct (nth_error k _) as [c|]; [|reflexivity].
      cbn [option_map]. rewrite ren_children.
      rewrite (bsearch_map ra (fun e => match t_prefix e with h :: _ => Some (cmp h c) | [] => None end))
        by (intros x; rewrite ren_prefix; destruct (t_prefix x); cbn [map]; rewrite ?Hq; reflexivity).
      destruct (bsearch _ _); [|reflexivity..]. rewrite nth_error_map. destruct (nth_error (t_children t) _) as [ch|]; [|reflexivity].
      cbn [option_map]. rewrite skipn_map. apply IH.
    Qed.
    Lemma find_map t k : t_find cmp' (ra t) (map q k) = rmap frmap (t_find cmp t k).
    Proof using Hq. unfold t_find. rewrite ren_size. apply find_loop_map. Qed.
    Lemma rt_get_map t k : rt_get cmp' (ra t) (map q k) = rmap (option_map g) (rt_get cmp t k).
    Proof using Hq. unfold rt_get. rewrite find_map. apply rmap_bind. intros []; cbn; rewrite ?ren_value; reflexivity. Qed.
    Lemma rt_contains_map t k : rt_contains_key cmp' (ra t) (map q k) = rt_contains_key cmp t k.
    Proof using Hq.
      unfold rt_contains_key. rewrite find_map. destruct (t_find cmp t k) as [[]| |]; cbn; rewrite ?ren_value; try reflexivity.
      now destruct (t_value t0).
    Qed.
    Lemma rt_filter_prefix_map t k : rt_filter_prefix cmp' (ra t) (map q k) = rmap ra (rt_filter_prefix cmp t k).
    Proof using Hq.
      unfold rt_filter_prefix. rewrite find_map. apply rmap_bind. intros [t'|t' n|t' n m]; cbn [frmap].
      - now destruct t'.
      - destruct t' as [p v c]. cbn [renamed]. rewrite map_length. destruct (n <=? length p); [|reflexivity].
        cbn [rmap rbind]. rewrite skipn_map. now rewrite <- ren_prepend.
      - reflexivity.
    Qed.

    (** iteration *)
    Definition stmap (s : list (rtree K V * nat)) : list (rtree K' V' * nat) := map (fun e => (ra (fst e), snd e)) s.
    Definition entry_map (e : list K * V) : list K' * V' := (map q (fst e), g (snd e)).
    Lemma iter_next_map fuel : forall p s,
      iter_next fuel (map q p, stmap s) =
      rmap (option_map (fun r => (map q (fst (fst r)), g (snd (fst r)), (map q (fst (snd r)), stmap (snd (snd r)))))) (iter_next fuel (p, s)).
    Proof using.
      induction fuel as [|fuel IH]; intros p s; [reflexivity|]. cbn [iter_next iter_step].
      destruct s as [|[t pos] s]; [reflexivity|]. cbn [stmap map fst snd]. destruct pos as [|i].
      - rewrite ren_value. destruct (t_value t) as [v|]; [reflexivity|]. cbn [option_map].
        exact (IH p ((t, 1) :: s)).
      - rewrite ren_children, nth_error_map. destruct (nth_error (t_children t) i) as [c|]; cbn [option_map].
        + rewrite ren_prefix. unfold key_append. rewrite <- map_app. exact (IH _ ((c, 0) :: (t, S (S i)) :: s)).
        + rewrite ren_prefix. unfold key_pop. rewrite !map_length, firstn_map. apply IH.
    Qed.
    Lemma iter_collect_map calls fuel : forall p s,
      iter_collect calls fuel (map q p, stmap s) = rmap (map entry_map) (iter_collect calls fuel (p, s)).
    Proof using.
      induction calls as [|calls IH]; intros p s; [reflexivity|]. cbn [iter_collect]. rewrite iter_next_map.
      apply rmap_bind. intros [[[k v] [p1 s1]]|]; [|reflexivity]. cbn [option_map fst snd]. rewrite IH. now apply rmap_bind.
    Qed.
    Lemma iter_from_map t p : iter_from (ra t) (map q p) = rmap (map entry_map) (iter_from t p).
    Proof using. unfold iter_from. rewrite ren_size. exact (iter_collect_map _ _ p [(t, 0)]). Qed.
    Lemma rt_iter_map t : rt_iter (ra t) = rmap (map entry_map) (rt_iter t).
    Proof using. unfold rt_iter. rewrite ren_prefix. apply iter_from_map. Qed.
    Lemma rt_scan_map t k : rt_scan_prefix cmp' (ra t) (map q k) = rmap (map entry_map) (rt_scan_prefix cmp t k).
    Proof using Hq.
      unfold rt_scan_prefix. rewrite find_map. apply rmap_bind. intros [t'|t' n|t' n m]; cbn [frmap].
      - apply iter_from_map.
      - rewrite ren_prefix, map_length. destruct (n <=? _); [|reflexivity]. rewrite skipn_map. unfold key_append.
        rewrite <- map_app. apply iter_from_map.
      - reflexivity.
    Qed.
    Lemma values_next_map fuel : forall s,
      values_next fuel (stmap s) = rmap (option_map (fun r => (g (fst r), stmap (snd r)))) (values_next fuel s).
    Proof using.
      induction fuel as [|fuel IH]; intros s; [reflexivity|]. cbn [values_next].
      destruct s as [|[t pos] s]; [reflexivity|]. cbn [stmap map fst snd values_step]. destruct pos as [|i].
      - rewrite ren_value. destruct (t_value t) as [v|]; [reflexivity|]. cbn [option_map]. exact (IH ((t, 1) :: s)).
      - rewrite ren_children, nth_error_map. destruct (nth_error (t_children t) i) as [c|]; cbn [option_map].
        + exact (IH ((c, 0) :: (t, S (S i)) :: s)).
        + apply IH.
    Qed.
    Lemma rt_values_map t : rt_values (ra t) = rmap (map g) (rt_values t).
    Proof using.
      unfold rt_values. rewrite ren_size. change [(ra t, 0)] with (stmap [(t, 0)]). generalize [(t, 0)].
      generalize (S (3 * t_size t)) (S (t_size t)). intros fuel calls.
      induction calls as [|calls IH]; intros s; [reflexivity|]. cbn [values_collect]. rewrite values_next_map.
      apply rmap_bind. intros [[v s1]|]; [|reflexivity]. cbn [option_map fst snd]. rewrite IH. now apply rmap_bind.
    Qed.

    (** equality and validation *)
    Lemma rt_eqb_map (veqb : V -> V -> bool) (veqb' : V' -> V' -> bool) (Hv : forall x y, veqb' (g x) (g y) = veqb x y) a :
      forall b, rt_eqb cmp' veqb' (ra a) (ra b) = rt_eqb cmp veqb a b.
    Proof using Hq.
      induction a as [p v cs IH] using rtree_ind'. intros [p2 v2 cs2]. cbn [renamed rt_eqb]. f_equal; [f_equal|].
      - revert p2. induction p as [|x p IHp]; intros [|y p2]; cbn [map list_eqb]; try reflexivity.
        now rewrite (keqb_q cmp cmp' q Hq), IHp.
      - destruct v, v2; cbn; auto.
      - revert cs2. induction IH as [|c cs Hc _ IH]; intros [|c2 cs2]; cbn [map]; try reflexivity.
        now rewrite Hc, IH.
    Qed.
    Lemma rt_check_map t : rt_check cmp' (ra t) = rt_check cmp t.
    Proof using Hq.
      induction t as [p v cs IH] using rtree_ind'. cbn [renamed rt_check].
      assert (Q1 : forallb has_head (map ra cs) = forallb has_head cs).
      { clear. induction cs as [|c cs IH]; [reflexivity|]. cbn [map forallb]. now rewrite ren_has_head, IH. }
      assert (Q2 : adjacent_lt cmp' (map ra cs) = adjacent_lt cmp cs).
      { clear - Hq. induction cs as [|a [|b cs] IH]; [reflexivity..|].
        change (adjacent_lt cmp' (map ra (a :: b :: cs))) with
          ((match head_cmp cmp' (ra a) (ra b) with Some Lt => true | _ => false end) && adjacent_lt cmp' (map ra (b :: cs))).
        rewrite IH, (head_cmp_ren cmp cmp' q Hq). reflexivity. }
      rewrite Q1, Q2. f_equal.
      clear Q1 Q2. induction IH as [|c cs Hc _ IH]; [reflexivity|]. cbn [map forallb]. now rewrite Hc, IH.
    Qed.
  End One.
End Operations.

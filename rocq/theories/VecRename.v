(** Renaming the elements of vector sets and the keys and values of vector maps. Facts for C134, C135: every
    operation of VecSetModel.v, VecMapModel.v and TotalModel.v commutes with a renaming that keeps the order
    of elements (keys). *)
From Verif Require Import RadixRename TotalModel.

Definition done_map {X Y} (h : X -> Y) (d : done X) : done Y :=
  match d with Done x => Done (h x) | Unwound x => Unwound (h x) | DoneNoFuel => DoneNoFuel end.
Definition cres_map {X Y} (h : X -> Y) (r : cres X) : cres Y := match r with Ret x => Ret (h x) | Throw => Throw end.
Lemma to_done_map {S S' X X'} (h : S -> S') (k : X -> X') (g : S -> X) (g' : S' -> X') o :
  (forall s, g' (h s) = k (g s)) -> to_done g' (omap h o) = done_map k (to_done g o).
Proof. intros H. destruct o; cbn [omap to_done done_map]; now rewrite ?H. Qed.
Lemma to_res_map {S S' X X'} (h : S -> S') (k : X -> X') (g : S -> X) (g' : S' -> X') o :
  (forall s, g' (h s) = k (g s)) -> to_res g' (omap h o) = rmap k (to_res g o).
Proof. intros H. destruct o; cbn [omap to_res rmap rbind]; now rewrite ?H. Qed.

(** ** vectors *)
Section Vec.
  Context {X Y : Type} (f : X -> Y).
  Lemma insert_at_map i x l : insert_at i (f x) (map f l) = map f (insert_at i x l).
  Proof using. unfold insert_at. now rewrite map_app, firstn_map, skipn_map. Qed.
  Lemma set_at_map i x l : set_at i (f x) (map f l) = map f (set_at i x l).
  Proof using. unfold set_at. now rewrite map_app, firstn_map, skipn_map. Qed.
  Lemma remove_at_map i l : remove_at i (map f l) = map f (remove_at i l).
  Proof using. unfold remove_at. now rewrite map_app, firstn_map, skipn_map. Qed.
  Lemma swap_at_map i j l : swap_at i j (map f l) = option_map (map f) (swap_at i j l).
  Proof using.
    unfold swap_at. rewrite !nth_error_map. destruct (nth_error l i), (nth_error l j); cbn [option_map]; try reflexivity.
    now rewrite !set_at_map.
  Qed.
  Lemma filter_nat p p' (l : list X) : (forall x, p' (f x) = p x) -> filter p' (map f l) = map f (filter p l).
  Proof using.
    intros H. induction l as [|x l IH]; [reflexivity|]. cbn [map filter]. rewrite H, IH. now destruct (p x).
  Qed.
  Lemma sort_insert_map c c' x l : (forall x y, c' (f x) (f y) = c x y) ->
    sort_insert c' (f x) (map f l) = map f (sort_insert c x l).
  Proof using.
    intros H. induction l as [|y l IH]; [reflexivity|]. cbn [map sort_insert]. rewrite H, IH. now destruct (c x y).
  Qed.
  Lemma sort_by_map c c' l : (forall x y, c' (f x) (f y) = c x y) -> sort_by c' (map f l) = map f (sort_by c l).
  Proof using.
    intros H. unfold sort_by. induction l as [|x l IH]; [reflexivity|]. cbn [map fold_right]. rewrite IH.
    now apply sort_insert_map.
  Qed.
  Lemma dedup_from_map s s' l : (forall x y, s' (f x) (f y) = s x y) ->
    forall x, dedup_from s' (f x) (map f l) = map f (dedup_from s x l).
  Proof using.
    intros H. induction l as [|y l IH]; intros x; [reflexivity|]. cbn [map dedup_from]. rewrite H, !IH.
    now destruct (s y x).
  Qed.
  Lemma dedup_map s s' l : (forall x y, s' (f x) (f y) = s x y) -> dedup s' (map f l) = map f (dedup s l).
  Proof using. intros H. destruct l as [|x l]; [reflexivity|]. now apply dedup_from_map. Qed.

  (** *** sort_dedup *)
  Lemma dedup_loop_map s s' kp is : (forall x y, s' (f x) (f y) = s x y) -> forall d j,
    dedup_loop s' kp is (map f d) j = option_map (fun r => (map f (fst r), snd r)) (dedup_loop s kp is d j).
  Proof using.
    intros H. induction is as [|i is IH]; intros d j; [reflexivity|]. cbn [dedup_loop]. cbv zeta.
    rewrite !nth_error_map. destruct (nth_error d i), (nth_error d j); cbn [option_map]; try reflexivity.
    rewrite H. destruct (s _ _), kp; cbn [negb]; try apply IH.
    - rewrite swap_at_map. destruct (swap_at i j d); [apply IH|reflexivity].
    - destruct (i =? j + 1); cbn [negb]; [apply IH|]. rewrite swap_at_map. destruct (swap_at i (j + 1) d); [apply IH|reflexivity].
    - destruct (i =? j + 1); cbn [negb]; [apply IH|]. rewrite swap_at_map. destruct (swap_at i (j + 1) d); [apply IH|reflexivity].
  Qed.
  Lemma dedup_by_map s s' kp d : (forall x y, s' (f x) (f y) = s x y) ->
    dedup_by (map f d) s' kp = option_map (fun r => (map f (fst r), snd r)) (dedup_by d s kp).
  Proof using.
    intros H. unfold dedup_by. destruct d as [|x d]; [reflexivity|]. cbn [map]. rewrite <- map_cons, map_length.
    rewrite (dedup_loop_map s s') by assumption. now destruct (dedup_loop _ _ _ _ _) as [[? ?]|].
  Qed.
  Definition sad_map (s : @sad X) : @sad Y := MkSad (map f (sd_data s)) (sd_sorted s) (sd_keep s).
  Context (c : X -> X -> comparison) (c' : Y -> Y -> comparison) (H : forall x y, c' (f x) (f y) = c x y).
  Lemma eqb_nat x y : eqb_of c' (f x) (f y) = eqb_of c x y.
  Proof using H. unfold eqb_of. now rewrite H. Qed.
  Lemma sd_compact_map s : sd_compact c' (sad_map s) = option_map sad_map (sd_compact c s).
  Proof using H.
    unfold sd_compact, sad_map. cbn [sd_data sd_sorted sd_keep]. rewrite map_length.
    destruct (sd_sorted s <? length (sd_data s)); [|reflexivity]. cbv zeta. rewrite (sort_by_map c c') by assumption.
    rewrite (dedup_by_map (fun a b => eqb_of c a b)) by (intros; apply eqb_nat).
    destruct (dedup_by _ _ _) as [[d u]|]; [|reflexivity]. cbn [option_map fst snd sd_data sd_sorted sd_keep].
    now rewrite firstn_map, map_length.
  Qed.
  Lemma sd_push_raw_map s x : sd_push_raw c' (sad_map s) (f x) = sad_map (sd_push_raw c s x).
  Proof using H.
    unfold sd_push_raw, sad_map. cbn [sd_data sd_sorted sd_keep]. rewrite map_length, <- map_rev.
    destruct (sd_sorted s =? length (sd_data s)).
    - destruct (rev (sd_data s)) as [|y r]; cbn [map]; [|rewrite H; destruct (c y x); [destruct (sd_keep s) eqn:Q|..]];
        cbn [sd_data sd_sorted sd_keep]; rewrite ?map_app, ?map_rev, ?Q; reflexivity.
    - cbn [sd_data sd_sorted sd_keep]. now rewrite map_app.
  Qed.
  Lemma sd_push_map s x : sd_push c' (sad_map s) (f x) = option_map sad_map (sd_push c s x).
  Proof using H.
    unfold sd_push. cbv zeta. rewrite sd_push_raw_map. unfold sad_map at 1 2 3 4. cbn [sd_data sd_sorted sd_keep].
    rewrite map_length. destruct (16 <=? _); [|reflexivity]. destruct (_ <? _); [apply sd_compact_map|reflexivity].
  Qed.
  Lemma sd_push_all_map l : forall s, sd_push_all c' (sad_map s) (map f l) = option_map sad_map (sd_push_all c s l).
  Proof using H.
    induction l as [|x l IH]; intros s; [reflexivity|]. cbn [map sd_push_all]. rewrite sd_push_map.
    destruct (sd_push c s x); [apply IH|reflexivity].
  Qed.
  Lemma sort_dedup_by_map l kp : sort_dedup_by c' (map f l) kp = option_map (map f) (sort_dedup_by c l kp).
  Proof using H.
    unfold sort_dedup_by. change (@sd_init Y kp) with (sad_map (@sd_init X kp)). rewrite sd_push_all_map.
    destruct (sd_push_all c (sd_init kp) l) as [s|]; [|reflexivity]. cbn [option_map]. unfold sd_into_inner.
    rewrite sd_compact_map. now destruct (sd_compact c s).
  Qed.
End Vec.
Section ByKey.
  Context {X Y K K' : Type} (f : X -> Y) (q : K -> K') (key : X -> K) (key' : Y -> K')
    (c : K -> K -> comparison) (c' : K' -> K' -> comparison) (H : forall x y, c' (q x) (q y) = c x y)
    (Hk : forall x, key' (f x) = q (key x)).
  Lemma sort_dedup_by_key_map l kp : sort_dedup_by_key c' key' (map f l) kp = option_map (map f) (sort_dedup_by_key c key l kp).
  Proof using H Hk. unfold sort_dedup_by_key. apply sort_dedup_by_map. intros x y. now rewrite !Hk. Qed.
End ByKey.

(** ** merge states *)
Section States.
  Context {A B A' B' : Type} (fa : A -> A') (fb : B -> B').
  Lemma si_drop_front_map (l : list A) n : si_drop_front (map fa l) n = option_map (map fa) (si_drop_front l n).
  Proof using. unfold si_drop_front. rewrite map_length, skipn_map. now destruct (n <=? length l). Qed.
  Lemma si_take_front_map (l : list A) n :
    si_take_front (map fa l) n = option_map (fun p => (map fa (fst p), map fa (snd p))) (si_take_front l n).
  Proof using. unfold si_take_front. rewrite map_length, firstn_map, skipn_map. now destruct (n <=? length l). Qed.
  Definition bd_map (b : builder A) : builder A' := MkB (map fa (bd_tgt b)) (map fa (bd_src b)) (map fa (bd_drop b)).
  Lemma bd_push_map b x : bd_push (bd_map b) (fa x) = bd_map (bd_push b x).
  Proof using. unfold bd_push, bd_map. cbn [bd_tgt bd_src bd_drop]. now rewrite map_app. Qed.
  Lemma bd_consume_map b n t : bd_consume (bd_map b) n t = bd_map (bd_consume b n t).
  Proof using.
    unfold bd_consume, bd_map. destruct t; cbn [bd_tgt bd_src bd_drop]; now rewrite ?map_app, ?firstn_map, ?skipn_map.
  Qed.
  Lemma bd_pop_front_map b : bd_pop_front (bd_map b) = option_map (fun p => (fa (fst p), bd_map (snd p))) (bd_pop_front b).
  Proof using. unfold bd_pop_front, bd_map. cbn [bd_src]. now destruct (bd_src b). Qed.
  Definition ip_map (s : ipstate A B) : ipstate A' B' := MkIp (bd_map (ip_a s)) (map fb (ip_b s)) (map fb (ip_drop_b s)).
  Definition ipr_map (s : iprstate A B) : iprstate A' B' := MkIpr (bd_map (ipr_a s)) (map fb (ipr_b s)).
  Definition bs_map (s : bstate A B) : bstate A' B' := MkBs (map fa (bs_a s)) (map fb (bs_b s)) (bs_r s).
  Definition vs_map {R R'} (fr : R -> R') (s : vstate A B R) : vstate A' B' R' :=
    MkVs (map fa (vs_a s)) (map fb (vs_b s)) (map fr (vs_r s)).
End States.

Section Sets.
  Context {T T' : Type} (cmp : T -> T -> comparison) (cmp' : T' -> T' -> comparison) (f : T -> T')
    (Hf : forall x y, cmp' (f x) (f y) = cmp x y) (strat : nat -> nat -> bool).
  (** a merge state and its renaming *)
  Record msm_nat {S S'} (h : S -> S') (M : msm S T T) (M' : msm S' T' T') : Prop := {
    mn_a : forall s, ms_a M' (h s) = map f (ms_a M s);
    mn_b : forall s, ms_b M' (h s) = map f (ms_b M s);
    mn_aa : forall s n t, adv_a M' (h s) n t = omap h (adv_a M s n t);
    mn_ab : forall s n t, adv_b M' (h s) n t = omap h (adv_b M s n t) }.
  Section Ops.
    Context {S S' : Type} (h : S -> S') (M : msm S T T) (M' : msm S' T' T') (N : msm_nat h M M').
    Lemma both_nat s t t' : obind (adv_a M' (h s) 1 t) (fun m => adv_b M' m 1 t') =
      omap h (obind (adv_a M s 1 t) (fun m => adv_b M m 1 t')).
    Proof using N. rewrite (mn_aa _ _ _ N). apply omap_bind. intros s'. apply (mn_ab _ _ _ N). Qed.
    Ltac op := intros s; apply merge_map with (fa := f) (fb := f); cbn [mo_a mo_b mo_cmp mo_from_a mo_from_b mo_coll];
      [apply (mn_a _ _ _ N)|apply (mn_b _ _ _ N)|intros x y; change (Some (cmp' (f x) (f y)) = Some (cmp x y)); now rewrite Hf|
       intros; apply (mn_aa _ _ _ N)|intros; apply (mn_ab _ _ _ N)|intros; apply both_nat].
    Lemma union_nat : forall s, merge (SetUnionOp cmp' M') strat (h s) = omap h (merge (SetUnionOp cmp M) strat s).
    Proof using N Hf. op. Qed.
    Lemma inter_nat : forall s, merge (SetIntersectionOp cmp' M') strat (h s) = omap h (merge (SetIntersectionOp cmp M) strat s).
    Proof using N Hf. op. Qed.
    Lemma diff_nat : forall s, merge (SetDiffOpt cmp' M') strat (h s) = omap h (merge (SetDiffOpt cmp M) strat s).
    Proof using N Hf. op. Qed.
    Lemma xor_nat : forall s, merge (SetXorOp cmp' M') strat (h s) = omap h (merge (SetXorOp cmp M) strat s).
    Proof using N Hf. op. Qed.
  End Ops.

  (** converters that agree *)
  Definition conv_nat (g : T -> option T) (g' : T' -> option T') : Prop := forall x, g' (f x) = option_map f (g x).
  Lemma clone_nat : conv_nat CloneConverter CloneConverter. Proof using. now intros x. Qed.
  Lemma id_nat : conv_nat IdConverter IdConverter. Proof using. now intros x. Qed.
  Lemma no_nat : conv_nat NoConverter NoConverter. Proof using. now intros x. Qed.
  Lemma push_all_map g g' l : conv_nat g g' -> forall r,
    push_all g' (map f l) (map f r) = (map f (fst (push_all g l r)), snd (push_all g l r)).
  Proof using.
    intros H. induction l as [|x l IH]; intros r; [reflexivity|]. cbn [map push_all]. rewrite H.
    destruct (g x) as [y|]; [|reflexivity]. cbn [option_map]. rewrite <- IH, map_app. reflexivity.
  Qed.
  Lemma bd_extend_map g g' n : conv_nat g g' -> forall bd l,
    bd_extend g' n (bd_map f bd) (map f l) =
      let '(bd', l', ok) := bd_extend g n bd l in (bd_map f bd', map f l', ok).
  Proof using.
    intros H. induction n as [|n IH]; intros bd l; [reflexivity|]. destruct l as [|x l]; [reflexivity|].
    cbn [map bd_extend]. rewrite H. destruct (g x) as [y|]; [|reflexivity]. cbn [option_map].
    rewrite bd_push_map. apply IH.
  Qed.
  Lemma bs_nat : msm_nat (bs_map f f) bs_msm bs_msm.
  Proof using.
    constructor; try reflexivity.
    - intros s n t. cbn [adv_a bs_msm]. unfold bs_adv_a, bs_map. cbn [bs_a bs_b bs_r].
      destruct t; [reflexivity|]. rewrite si_drop_front_map. now destruct (si_drop_front (bs_a s) n).
    - intros s n t. cbn [adv_b bs_msm]. unfold bs_adv_b, bs_map. cbn [bs_a bs_b bs_r].
      destruct t; [reflexivity|]. rewrite si_drop_front_map. now destruct (si_drop_front (bs_b s) n).
  Qed.
  Lemma vs_nat g g2 g' g2' : conv_nat g g' -> conv_nat g2 g2' -> msm_nat (vs_map f f f) (vs_msm g g2) (vs_msm g' g2').
  Proof using.
    intros H H2. constructor; try reflexivity.
    - intros s n t. cbn [adv_a vs_msm]. unfold vs_adv_a, vs_map. cbn [vs_a vs_b vs_r].
      destruct t; [rewrite si_take_front_map|rewrite si_drop_front_map].
      + destruct (si_take_front (vs_a s) n) as [[x y]|]; [|reflexivity]. cbn [option_map fst snd].
        rewrite (push_all_map g g') by assumption. destruct (push_all g x (vs_r s)) as [r [|]]; reflexivity.
      + now destruct (si_drop_front (vs_a s) n).
    - intros s n t. cbn [adv_b vs_msm]. unfold vs_adv_b, vs_map. cbn [vs_a vs_b vs_r].
      destruct t; [rewrite si_take_front_map|rewrite si_drop_front_map].
      + destruct (si_take_front (vs_b s) n) as [[x y]|]; [|reflexivity]. cbn [option_map fst snd].
        rewrite (push_all_map g2 g2') by assumption. destruct (push_all g2 x (vs_r s)) as [r [|]]; reflexivity.
      + now destruct (si_drop_front (vs_b s) n).
  Qed.
  Lemma ip_nat g g' : conv_nat g g' -> msm_nat (ip_map f f) (ip_msm g) (ip_msm g').
  Proof using.
    intros H. constructor; try reflexivity.
    - intros s n t. cbn [adv_a ip_msm]. unfold ip_adv_a, ip_map. cbn [ip_a ip_b ip_drop_b omap]. now rewrite bd_consume_map.
    - intros s n t. cbn [adv_b ip_msm]. unfold ip_adv_b, ip_map. cbn [ip_a ip_b ip_drop_b]. destruct t.
      + rewrite (bd_extend_map g g') by assumption. destruct (bd_extend g n (ip_a s) (ip_b s)) as [[bd l] [|]]; reflexivity.
      + cbn [omap ip_a ip_b ip_drop_b]. now rewrite firstn_map, skipn_map, map_app.
  Qed.
  Lemma ipr_nat g g' : conv_nat g g' -> msm_nat (ipr_map f f) (ipr_msm g) (ipr_msm g').
  Proof using.
    intros H. constructor; try reflexivity.
    - intros s n t. cbn [adv_a ipr_msm]. unfold ipr_adv_a, ipr_map. cbn [ipr_a ipr_b omap]. now rewrite bd_consume_map.
    - intros s n t. cbn [adv_b ipr_msm]. unfold ipr_adv_b, ipr_map. cbn [ipr_a ipr_b]. destruct t.
      + rewrite (bd_extend_map g g') by assumption. destruct (bd_extend g n (ipr_a s) (ipr_b s)) as [[bd l] [|]]; reflexivity.
      + cbn [omap ipr_a ipr_b]. now rewrite skipn_map.
  Qed.

  (** *** the operations *)
  Lemma vset_is_disjoint_map a b : vset_is_disjoint cmp' strat (map f a) (map f b) = vset_is_disjoint cmp strat a b.
  Proof using Hf.
    unfold vset_is_disjoint, bs_merge. f_equal. change (bs_new (map f a) (map f b)) with (bs_map f f (bs_new a b)).
    rewrite (inter_nat _ _ _ bs_nat), (to_res_map _ id bs_r) by reflexivity. now destruct (to_res _ _).
  Qed.
  Lemma diff_any_map a b : bs_merge strat (SetDiffOpt cmp' bs_msm) (map f a) (map f b) = bs_merge strat (SetDiffOpt cmp bs_msm) a b.
  Proof using Hf.
    unfold bs_merge. change (bs_new (map f a) (map f b)) with (bs_map f f (bs_new a b)).
    rewrite (diff_nat _ _ _ bs_nat), (to_res_map _ id bs_r) by reflexivity. now destruct (to_res _ _).
  Qed.
  Lemma vset_is_subset_map a b : vset_is_subset cmp' strat (map f a) (map f b) = vset_is_subset cmp strat a b.
  Proof using Hf. unfold vset_is_subset. now rewrite diff_any_map. Qed.
  Lemma vset_is_superset_map a b : vset_is_superset cmp' strat (map f a) (map f b) = vset_is_superset cmp strat a b.
  Proof using Hf. unfold vset_is_superset. now rewrite diff_any_map. Qed.
  Notation VN := (vs_nat _ _ _ _ clone_nat clone_nat).
  Ltac vs N := intros a b; cbv delta [vset_union vset_intersection vset_symmetric_difference vset_difference vs_merge] beta;
    change (vs_new (map f a) (map f b)) with (vs_map f f f (vs_new a b : vstate T T T));
    rewrite (N _ _ _ _ _ VN); now apply to_res_map.
  Lemma vset_union_map : forall a b, vset_union cmp' strat (map f a) (map f b) = rmap (map f) (vset_union cmp strat a b).
  Proof using Hf. vs @union_nat. Qed.
  Lemma vset_intersection_map : forall a b, vset_intersection cmp' strat (map f a) (map f b) = rmap (map f) (vset_intersection cmp strat a b).
  Proof using Hf. vs @inter_nat. Qed.
  Lemma vset_symmetric_difference_map : forall a b,
    vset_symmetric_difference cmp' strat (map f a) (map f b) = rmap (map f) (vset_symmetric_difference cmp strat a b).
  Proof using Hf. vs @xor_nat. Qed.
  Lemma vset_difference_map : forall a b, vset_difference cmp' strat (map f a) (map f b) = rmap (map f) (vset_difference cmp strat a b).
  Proof using Hf. vs @diff_nat. Qed.

  (** in place, right operand by value: the kept elements and the dropped ones *)
  Definition full_map (r : list T * list T * list T) : list T' * list T' * list T' :=
    let '(x, d, d2) := r in (map f x, map f d, map f d2).
  Notation IN := (ip_nat _ _ id_nat).
  Ltac ips N := intros a b; cbv delta [vset_bitand_assign_full vset_bitor_assign_full vset_bitxor_assign_full vset_sub_assign_full ip_merge] beta;
    change (ip_new (map f a) (map f b)) with (ip_map f f (ip_new a b));
    rewrite (N _ _ _ _ _ IN); apply to_done_map; intros s; unfold full_map, ip_map, bd_map;
    cbn [ip_a ip_b ip_drop_b bd_tgt bd_src bd_drop]; now rewrite !map_app.
  Lemma vset_bitand_assign_full_map : forall a b,
    vset_bitand_assign_full cmp' strat (map f a) (map f b) = done_map full_map (vset_bitand_assign_full cmp strat a b).
  Proof using Hf. ips @inter_nat. Qed.
  Lemma vset_bitor_assign_full_map : forall a b,
    vset_bitor_assign_full cmp' strat (map f a) (map f b) = done_map full_map (vset_bitor_assign_full cmp strat a b).
  Proof using Hf. ips @union_nat. Qed.
  Lemma vset_bitxor_assign_full_map : forall a b,
    vset_bitxor_assign_full cmp' strat (map f a) (map f b) = done_map full_map (vset_bitxor_assign_full cmp strat a b).
  Proof using Hf. ips @xor_nat. Qed.
  Lemma vset_sub_assign_full_map : forall a b,
    vset_sub_assign_full cmp' strat (map f a) (map f b) = done_map full_map (vset_sub_assign_full cmp strat a b).
  Proof using Hf. ips @diff_nat. Qed.
  Lemma kept_map d : VecSetModel.kept (done_map full_map d) = done_map (map f) (VecSetModel.kept d).
  Proof using. destruct d as [[[x d] d2]|[[x d] d2]|]; reflexivity. Qed.
  Lemma vset_bitand_assign_map a b :
    vset_bitand_assign cmp' strat (map f a) (map f b) = done_map (map f) (vset_bitand_assign cmp strat a b).
  Proof using Hf. unfold vset_bitand_assign. now rewrite vset_bitand_assign_full_map, kept_map. Qed.
  Lemma vset_bitor_assign_map a b :
    vset_bitor_assign cmp' strat (map f a) (map f b) = done_map (map f) (vset_bitor_assign cmp strat a b).
  Proof using Hf. unfold vset_bitor_assign. now rewrite vset_bitor_assign_full_map, kept_map. Qed.
  Lemma vset_bitxor_assign_map a b :
    vset_bitxor_assign cmp' strat (map f a) (map f b) = done_map (map f) (vset_bitxor_assign cmp strat a b).
  Proof using Hf. unfold vset_bitxor_assign. now rewrite vset_bitxor_assign_full_map, kept_map. Qed.
  Lemma vset_sub_assign_map a b :
    vset_sub_assign cmp' strat (map f a) (map f b) = done_map (map f) (vset_sub_assign cmp strat a b).
  Proof using Hf. unfold vset_sub_assign. now rewrite vset_sub_assign_full_map, kept_map. Qed.

  (** in place, right operand by reference *)
  Ltac iprs C N := intros a b;
    cbv delta [vset_bitand_assign_ref vset_bitor_assign_ref vset_bitxor_assign_ref vset_sub_assign_ref
      vset_union_with vset_intersection_with vset_xor_with vset_difference_with ipr_merge] beta;
    change (ipr_new (map f a) (map f b)) with (ipr_map f f (ipr_new a b));
    rewrite (N _ _ _ _ _ (ipr_nat _ _ C)); now apply to_done_map.
  Lemma vset_bitand_assign_ref_map : forall a b,
    vset_bitand_assign_ref cmp' strat (map f a) (map f b) = done_map (map f) (vset_bitand_assign_ref cmp strat a b).
  Proof using Hf. iprs clone_nat @inter_nat. Qed.
  Lemma vset_bitor_assign_ref_map : forall a b,
    vset_bitor_assign_ref cmp' strat (map f a) (map f b) = done_map (map f) (vset_bitor_assign_ref cmp strat a b).
  Proof using Hf. iprs clone_nat @union_nat. Qed.
  Lemma vset_bitxor_assign_ref_map : forall a b,
    vset_bitxor_assign_ref cmp' strat (map f a) (map f b) = done_map (map f) (vset_bitxor_assign_ref cmp strat a b).
  Proof using Hf. iprs clone_nat @xor_nat. Qed.
  Lemma vset_sub_assign_ref_map : forall a b,
    vset_sub_assign_ref cmp' strat (map f a) (map f b) = done_map (map f) (vset_sub_assign_ref cmp strat a b).
  Proof using Hf. iprs clone_nat @diff_nat. Qed.
  Lemma vset_union_with_map : forall a b,
    vset_union_with cmp' strat (map f a) (map f b) = done_map (map f) (vset_union_with cmp strat a b).
  Proof using Hf. iprs no_nat @union_nat. Qed.
  Lemma vset_intersection_with_map : forall a b,
    vset_intersection_with cmp' strat (map f a) (map f b) = done_map (map f) (vset_intersection_with cmp strat a b).
  Proof using Hf. iprs no_nat @inter_nat. Qed.
  Lemma vset_xor_with_map : forall a b,
    vset_xor_with cmp' strat (map f a) (map f b) = done_map (map f) (vset_xor_with cmp strat a b).
  Proof using Hf. iprs no_nat @inter_nat. Qed.
  Lemma vset_difference_with_map : forall a b,
    vset_difference_with cmp' strat (map f a) (map f b) = done_map (map f) (vset_difference_with cmp strat a b).
  Proof using Hf. iprs no_nat @diff_nat. Qed.

  (** lookups and single elements *)
  Lemma probe_map l x : bsearch (probe cmp' (f x)) (map f l) = bsearch (probe cmp x) l.
  Proof using Hf. apply bsearch_map. intros y. unfold probe. now rewrite Hf. Qed.
  Lemma vset_contains_map l x : vset_contains cmp' (map f l) (f x) = vset_contains cmp l x.
  Proof using Hf. unfold vset_contains. now rewrite probe_map. Qed.
  Lemma vset_contains_count_map l x : vset_contains_count cmp' (map f l) (f x) = vset_contains_count cmp l x.
  Proof using Hf.
    unfold vset_contains_count, bs_count. rewrite map_length. f_equal. apply bs_loop_map. intros y. unfold probe. now rewrite Hf.
  Qed.
  Lemma vset_insert_map l x :
    vset_insert cmp' (map f l) (f x) = rmap (fun r => (map f (fst r), snd r)) (vset_insert cmp l x).
  Proof using Hf.
    unfold vset_insert. rewrite probe_map. destruct (bsearch (probe cmp x) l); cbn [rmap rbind fst snd]; try reflexivity.
    - now rewrite set_at_map.
    - now rewrite insert_at_map.
  Qed.
  Lemma vset_remove_map l x :
    vset_remove cmp' (map f l) (f x) = rmap (fun r => (map f (fst r), snd r)) (vset_remove cmp l x).
  Proof using Hf.
    unfold vset_remove. rewrite probe_map. destruct (bsearch (probe cmp x) l); cbn [rmap rbind fst snd]; try reflexivity.
    now rewrite remove_at_map.
  Qed.
  Lemma vset_insert_all_map xs : forall l,
    vset_insert_all cmp' (map f l) (map f xs) = rmap (map f) (vset_insert_all cmp l xs).
  Proof using Hf.
    induction xs as [|x xs IH]; intros l; [reflexivity|]. cbn [map vset_insert_all]. rewrite vset_insert_map.
    apply rmap_bind. intros [l' b]. apply IH.
  Qed.
  Lemma vset_from_vec_map v : vset_from_vec cmp' (map f v) = map f (vset_from_vec cmp v).
  Proof using Hf.
    unfold vset_from_vec. rewrite (sort_by_map f cmp cmp') by assumption. apply dedup_map. intros x y. now apply eqb_nat.
  Qed.
  Lemma vset_from_iter_map l : vset_from_iter cmp' (map f l) = option_map (map f) (vset_from_iter cmp l).
  Proof using Hf. unfold vset_from_iter. now apply sort_dedup_by_map. Qed.
  Lemma vset_extend_map l items :
    vset_extend cmp' strat (map f l) (map f items) = option_map (done_map (map f)) (vset_extend cmp strat l items).
  Proof using Hf.
    unfold vset_extend. rewrite vset_from_iter_map. destruct (vset_from_iter cmp items) as [s|]; [|reflexivity].
    cbn [option_map]. now rewrite vset_bitor_assign_map.
  Qed.
  Lemma vset_eqb_map a : forall b, vset_eqb cmp' (map f a) (map f b) = vset_eqb cmp a b.
  Proof using Hf.
    induction a as [|x a IH]; intros [|y b]; cbn [map vset_eqb]; try reflexivity. rewrite IH. f_equal. now apply eqb_nat.
  Qed.
  Lemma vset_cmp_map a : forall b, vset_cmp cmp' (map f a) (map f b) = vset_cmp cmp a b.
  Proof using Hf.
    induction a as [|x a IH]; intros [|y b]; cbn [map vset_cmp]; try reflexivity. now rewrite Hf, IH.
  Qed.
  Lemma vset_check_order_map l : vset_check_order cmp' (map f l) = vset_check_order cmp l.
  Proof using Hf.
    unfold vset_check_order. rewrite skipn_map. generalize (skipn 1 l) as m. induction l as [|x l IH]; intros m; [reflexivity|].
    destruct m as [|y m]; [reflexivity|]. cbn [map combine forallb fst snd]. now rewrite Hf, IH.
  Qed.
  Lemma vset_check_bytes_map valid valid' l : (forall x, valid' (f x) = valid x) ->
    vset_check_bytes cmp' valid' (map f l) = vset_check_bytes cmp valid l.
  Proof using Hf.
    intros H. unfold vset_check_bytes. rewrite vset_check_order_map.
    replace (forallb valid' (map f l)) with (forallb valid l); [reflexivity|].
    induction l as [|x l IH]; [reflexivity|]. cbn [map forallb]. now rewrite H, IH.
  Qed.
End Sets.

(** ** maps *)
(** an entry with key and value renamed *)
Definition entry_map {K K' V V'} (q : K -> K') (g : V -> V') (p : K * V) : K' * V' := (q (fst p), g (snd p)).
(** f' does to renamed arguments in the renamed environment what f does *)
Definition follows {E E' X X' Y Y'} (he : E -> E') (hx : X -> X') (hy : Y -> Y') (f : clos E X Y) (f' : clos E' X' Y') : Prop :=
  forall e x, f' (he e) (hx x) = (he (fst (f e x)), cres_map hy (snd (f e x))).
Definition ojarg_map {K K' A A' B B'} (q : K -> K') (g : A -> A') (h : B -> B') (x : ojarg K A B) : ojarg K' A' B' :=
  match x with OJLeft k a => OJLeft (q k) (g a) | OJRight k b => OJRight (q k) (h b) | OJBoth k a b => OJBoth (q k) (g a) (h b) end.
Definition larg_map {K K' A A' B B'} (q : K -> K') (g : A -> A') (h : B -> B') (x : K * A * option B) : K' * A' * option B' :=
  let '(k, a, b) := x in (q k, g a, option_map h b).
Definition rarg_map {K K' A A' B B'} (q : K -> K') (g : A -> A') (h : B -> B') (x : K * option A * B) : K' * option A' * B' :=
  let '(k, a, b) := x in (q k, option_map g a, h b).
Definition iarg_map {K K' A A' B B'} (q : K -> K') (g : A -> A') (h : B -> B') (x : K * A * B) : K' * A' * B' :=
  let '(k, a, b) := x in (q k, g a, h b).

Lemma call_map {E E' X X' Y Y' S S'} (he : E -> E') (hx : X -> X') (hy : Y -> Y') (hs : S -> S') f f' e x ret ret' th th' :
  follows he hx hy f f' -> (forall y, ret' (hy y) = hs (ret y)) -> th' = hs th ->
  call f' (he e) (hx x) ret' th' = omap (fun p => (hs (fst p), he (snd p))) (call f e x ret th).
Proof.
  intros F H ->. unfold call. rewrite F. destruct (f e x) as [e1 [y|]]; cbn [fst snd cres_map omap]; [now rewrite H|reflexivity].
Qed.
Lemma for_n_map {S S'} (h : S -> S') body body' n : (forall s, body' (h s) = omap h (body s)) ->
  forall s, for_n n body' (h s) = omap h (for_n n body s).
Proof.
  intros H. induction n as [|n IH]; intros s; [reflexivity|]. cbn [for_n]. rewrite H. now apply omap_bind.
Qed.

Section Maps.
  Context {K K' : Type} (kcmp : K -> K -> comparison) (kcmp' : K' -> K' -> comparison) (q : K -> K')
    (Hq : forall x y, kcmp' (q x) (q y) = kcmp x y) (strat : nat -> nat -> bool).
  Section VS.
    Context {V V' W W' R R' E E' : Type} (g : V -> V') (h : W -> W') (r : R -> R') (he : E -> E').
    Notation hvs := (fun s : vstate (K * V) (K * W) (K * R) * E =>
      (vs_map (entry_map q g) (entry_map q h) (entry_map q r) (fst s), he (snd s))).
    Lemma vs_emit_map (m : vstate (K * V) (K * W) (K * R)) k o :
      vs_emit (vs_map (entry_map q g) (entry_map q h) (entry_map q r) m) (q k) (option_map r o) =
      vs_map (entry_map q g) (entry_map q h) (entry_map q r) (vs_emit m k o).
    Proof using. destruct o as [x|]; [|reflexivity]. cbn [option_map vs_emit]. unfold vs_map. cbn [vs_a vs_b vs_r]. now rewrite map_app. Qed.
    Ltac emit F x := match goal with |- ?l = omap _ ?o => change (l = omap hvs o) end; apply (call_map he x (option_map r)) with (1 := F); [intros y|reflexivity];
      apply (vs_emit_map (MkVs _ _ _)).
    Lemma jv_drop_a_map (s : vstate (K * V) (K * W) (K * R) * E) n : jv_drop_a (hvs s) n = omap hvs (jv_drop_a s n).
    Proof using.
      unfold jv_drop_a, vs_map. cbn [fst snd vs_a vs_b vs_r]. rewrite si_drop_front_map.
      now destruct (si_drop_front (vs_a (fst s)) n).
    Qed.
    Lemma jv_drop_b_map (s : vstate (K * V) (K * W) (K * R) * E) n : jv_drop_b (hvs s) n = omap hvs (jv_drop_b s n).
    Proof using.
      unfold jv_drop_b, vs_map. cbn [fst snd vs_a vs_b vs_r]. rewrite si_drop_front_map.
      now destruct (si_drop_front (vs_b (fst s)) n).
    Qed.
    Lemma jv_coll_map {X X'} (hx : X -> X') f f' arg arg' : follows he hx (option_map r) f f' ->
      (forall k v w, arg' (q k) (g v) (h w) = hx (arg k v w)) ->
      forall s, jv_coll f' arg' (hvs s) = omap hvs (jv_coll f arg s).
    Proof using.
      intros F A [[l l2 l3] e]. unfold jv_coll, vs_map. cbn [fst snd vs_a vs_b vs_r].
      destruct l as [|[k v] a]; [reflexivity|]. cbn [map entry_map fst snd].
      destruct l2 as [|[k2 w] b]; [reflexivity|]. cbn [map entry_map fst snd]. cbv zeta. rewrite A. emit F hx.
    Qed.
    Ltac engine F := intros s; apply (merge_map hvs) with (fa := entry_map q g) (fb := entry_map q h);
      cbn [mo_a mo_b mo_cmp mo_from_a mo_from_b mo_coll OuterJoinOp_v LeftJoinOp_v RightJoinOp_v InnerJoinOp_v];
      [reflexivity|reflexivity|intros x y; unfold kvcmp; cbn [fst entry_map]; now rewrite Hq|
       intros s0 n; first [apply (for_n_map hvs); intros [[l l2 l3] e]|exact (jv_drop_a_map s0 n)]|
       intros s0 n; first [apply (for_n_map hvs); intros [[l l2 l3] e]|exact (jv_drop_b_map s0 n)]|
       intros s0; eapply jv_coll_map; [exact F|reflexivity]].
    Ltac front l0 := unfold vs_map; cbn [fst snd vs_a vs_b vs_r]; destruct l0 as [|[k v] a]; [reflexivity|];
      cbn [map entry_map fst snd]; cbv zeta.
    Lemma outer_v_map f f' : follows he (ojarg_map q g h) (option_map r) f f' ->
      forall s, merge (OuterJoinOp_v kcmp' f') strat (hvs s) = omap hvs (merge (OuterJoinOp_v kcmp f) strat s).
    Proof using Hq.
      intros F. engine F.
      - unfold ojv_a. front l. change (OJLeft (q k) (g v)) with (ojarg_map q g h (OJLeft k v)). emit F (ojarg_map q g h).
      - unfold ojv_b. front l2. change (OJRight (q k) (h v)) with (ojarg_map q g h (OJRight k v)). emit F (ojarg_map q g h).
    Qed.
    Lemma left_v_map f f' : follows he (larg_map q g h) (option_map r) f f' ->
      forall s, merge (LeftJoinOp_v kcmp' f') strat (hvs s) = omap hvs (merge (LeftJoinOp_v kcmp f) strat s).
    Proof using Hq.
      intros F. engine F.
      unfold ljv_a. front l. change (q k, g v, @None W') with (larg_map q g h (k, v, None)). emit F (larg_map q g h).
    Qed.
    Lemma right_v_map f f' : follows he (rarg_map q g h) (option_map r) f f' ->
      forall s, merge (RightJoinOp_v kcmp' f') strat (hvs s) = omap hvs (merge (RightJoinOp_v kcmp f) strat s).
    Proof using Hq.
      intros F. engine F.
      unfold rjv_b. front l2. change (q k, @None V', h v) with (rarg_map q g h (k, None, v)). emit F (rarg_map q g h).
    Qed.
    Lemma inner_v_map f f' : follows he (iarg_map q g h) (option_map r) f f' ->
      forall s, merge (InnerJoinOp_v kcmp' f') strat (hvs s) = omap hvs (merge (InnerJoinOp_v kcmp f) strat s).
    Proof using Hq. intros F. engine F. Qed.
    Definition joined_map (x : list (K * R) * E) : list (K' * R') * E' := (map (entry_map q r) (fst x), he (snd x)).
    Ltac join N := intros F a b e; cbv delta [vmap_outer_join vmap_left_join vmap_right_join vmap_inner_join vs_join] beta;
      
      match goal with |- to_done ?p (merge ?o _ _) = _ =>
        transitivity (to_done p (merge o strat (hvs (vs_new a b : vstate (K * V) (K * W) (K * R), e)))); [reflexivity|] end;
      rewrite (N _ _ F (vs_new a b, e)); now apply to_done_map.
    Lemma vmap_outer_join_map f f' : follows he (ojarg_map q g h) (option_map r) f f' -> forall a b e,
      vmap_outer_join kcmp' strat f' (map (entry_map q g) a) (map (entry_map q h) b) (he e) =
      done_map joined_map (vmap_outer_join kcmp strat f a b e).
    Proof using Hq. join outer_v_map. Qed.
    Lemma vmap_left_join_map f f' : follows he (larg_map q g h) (option_map r) f f' -> forall a b e,
      vmap_left_join kcmp' strat f' (map (entry_map q g) a) (map (entry_map q h) b) (he e) =
      done_map joined_map (vmap_left_join kcmp strat f a b e).
    Proof using Hq. join left_v_map. Qed.
    Lemma vmap_right_join_map f f' : follows he (rarg_map q g h) (option_map r) f f' -> forall a b e,
      vmap_right_join kcmp' strat f' (map (entry_map q g) a) (map (entry_map q h) b) (he e) =
      done_map joined_map (vmap_right_join kcmp strat f a b e).
    Proof using Hq. join right_v_map. Qed.
    Lemma vmap_inner_join_map f f' : follows he (iarg_map q g h) (option_map r) f f' -> forall a b e,
      vmap_inner_join kcmp' strat f' (map (entry_map q g) a) (map (entry_map q h) b) (he e) =
      done_map joined_map (vmap_inner_join kcmp strat f a b e).
    Proof using Hq. join inner_v_map. Qed.
  End VS.

  (** in place *)
  Section IPR.
    Context {V V' W W' E E' : Type} (g : V -> V') (h : W -> W') (he : E -> E').
    Notation his := (fun s : iprstate (K * V) (K * W) * E =>
      (ipr_map (entry_map q g) (entry_map q h) (fst s), he (snd s))).
    Lemma ipr_emit_map (m : iprstate (K * V) (K * W)) k o :
      ipr_emit (ipr_map (entry_map q g) (entry_map q h) m) (q k) (option_map g o) =
      ipr_map (entry_map q g) (entry_map q h) (ipr_emit m k o).
    Proof using.
      destruct o as [x|]; [|reflexivity]. cbn [option_map ipr_emit]. unfold ipr_map. cbn [ipr_a ipr_b].
      change (q k, g x) with (entry_map q g (k, x)). now rewrite bd_push_map.
    Qed.
    Ltac emit F x := match goal with |- ?l = omap _ ?o => change (l = omap his o) end; apply (call_map he x (option_map g)) with (1 := F); [intros y|reflexivity];
      apply (ipr_emit_map (MkIpr _ _)).
    Lemma ji_drop_a_map (s : iprstate (K * V) (K * W) * E) n : ji_drop_a (his s) n = omap his (ji_drop_a s n).
    Proof using. unfold ji_drop_a, ipr_map. cbn [fst snd ipr_a ipr_b omap]. now rewrite bd_consume_map. Qed.
    Lemma ji_drop_b_map (s : iprstate (K * V) (K * W) * E) n : ji_drop_b (his s) n = omap his (ji_drop_b s n).
    Proof using.
      unfold ji_drop_b, ipr_map. cbn [fst snd ipr_a ipr_b]. rewrite si_drop_front_map.
      now destruct (si_drop_front (ipr_b (fst s)) n).
    Qed.
    Lemma ji_coll_map {X X'} (hx : X -> X') f f' arg arg' : follows he hx (option_map g) f f' ->
      (forall k v w, arg' (q k) (g v) (h w) = hx (arg k v w)) ->
      forall s, ji_coll f' arg' (his s) = omap his (ji_coll f arg s).
    Proof using.
      intros F A [[l l2] e]. unfold ji_coll, ipr_map. cbn [fst snd ipr_a ipr_b]. rewrite bd_pop_front_map.
      destruct (bd_pop_front l) as [[[k v] bd]|]; [|reflexivity]. cbn [option_map entry_map fst snd].
      destruct l2 as [|[k2 w] b]; [reflexivity|]. cbn [map entry_map fst snd]. cbv zeta. rewrite A. emit F hx.
    Qed.
    Ltac engine F := intros s; apply (merge_map his) with (fa := entry_map q g) (fb := entry_map q h);
      cbn [mo_a mo_b mo_cmp mo_from_a mo_from_b mo_coll OuterJoinOp_i LeftJoinOp_i RightJoinOp_i InnerJoinOp_i];
      [reflexivity|reflexivity|intros x y; unfold kvcmp; cbn [fst entry_map]; now rewrite Hq|
       intros s0 n; first [apply (for_n_map his); intros [[l l2] e]|exact (ji_drop_a_map s0 n)]|
       intros s0 n; first [apply (for_n_map his); intros [[l l2] e]|exact (ji_drop_b_map s0 n)]|
       intros s0; eapply ji_coll_map; [exact F|reflexivity]].
    Ltac popa l := unfold ipr_map; cbn [fst snd ipr_a ipr_b]; rewrite bd_pop_front_map;
      destruct (bd_pop_front l) as [[[k v] bd]|]; [|reflexivity]; cbn [option_map entry_map fst snd]; cbv zeta.
    Ltac popb l2 := unfold ipr_map; cbn [fst snd ipr_a ipr_b];
      destruct l2 as [|[k v] b]; [reflexivity|]; cbn [map entry_map fst snd]; cbv zeta.
    Lemma outer_i_map f f' : follows he (ojarg_map q g h) (option_map g) f f' ->
      forall s, merge (OuterJoinOp_i kcmp' f') strat (his s) = omap his (merge (OuterJoinOp_i kcmp f) strat s).
    Proof using Hq.
      intros F. engine F.
      - unfold oji_a. popa l. change (OJLeft (q k) (g v)) with (ojarg_map q g h (OJLeft k v)). emit F (ojarg_map q g h).
      - unfold oji_b. popb l2. change (OJRight (q k) (h v)) with (ojarg_map q g h (OJRight k v)). emit F (ojarg_map q g h).
    Qed.
    Lemma left_i_map f f' : follows he (larg_map q g h) (option_map g) f f' ->
      forall s, merge (LeftJoinOp_i kcmp' f') strat (his s) = omap his (merge (LeftJoinOp_i kcmp f) strat s).
    Proof using Hq.
      intros F. engine F.
      unfold lji_a. popa l. change (q k, g v, @None W') with (larg_map q g h (k, v, None)). emit F (larg_map q g h).
    Qed.
    Lemma right_i_map f f' : follows he (rarg_map q g h) (option_map g) f f' ->
      forall s, merge (RightJoinOp_i kcmp' f') strat (his s) = omap his (merge (RightJoinOp_i kcmp f) strat s).
    Proof using Hq.
      intros F. engine F.
      unfold rji_b. popb l2. change (q k, @None V', h v) with (rarg_map q g h (k, None, v)). emit F (rarg_map q g h).
    Qed.
    Lemma inner_i_map f f' : follows he (iarg_map q g h) (option_map g) f f' ->
      forall s, merge (InnerJoinOp_i kcmp' f') strat (his s) = omap his (merge (InnerJoinOp_i kcmp f) strat s).
    Proof using Hq. intros F. engine F. Qed.
    Ltac join N := intros F a b e; cbv delta [vmap_outer_join_with vmap_left_join_with vmap_right_join_with vmap_inner_join_with ipr_join] beta;
      
      match goal with |- to_done ?p (merge ?o _ _) = _ =>
        transitivity (to_done p (merge o strat (his (ipr_new a b, e)))); [reflexivity|] end;
      rewrite (N _ _ F (ipr_new a b, e)); now apply to_done_map.
    Lemma vmap_outer_join_with_map f f' : follows he (ojarg_map q g h) (option_map g) f f' -> forall a b e,
      vmap_outer_join_with kcmp' strat f' (map (entry_map q g) a) (map (entry_map q h) b) (he e) =
      done_map (joined_map g he) (vmap_outer_join_with kcmp strat f a b e).
    Proof using Hq. join outer_i_map. Qed.
    Lemma vmap_left_join_with_map f f' : follows he (larg_map q g h) (option_map g) f f' -> forall a b e,
      vmap_left_join_with kcmp' strat f' (map (entry_map q g) a) (map (entry_map q h) b) (he e) =
      done_map (joined_map g he) (vmap_left_join_with kcmp strat f a b e).
    Proof using Hq. join left_i_map. Qed.
    Lemma vmap_right_join_with_map f f' : follows he (rarg_map q g h) (option_map g) f f' -> forall a b e,
      vmap_right_join_with kcmp' strat f' (map (entry_map q g) a) (map (entry_map q h) b) (he e) =
      done_map (joined_map g he) (vmap_right_join_with kcmp strat f a b e).
    Proof using Hq. join right_i_map. Qed.
    Lemma vmap_inner_join_with_map f f' : follows he (iarg_map q g h) (option_map g) f f' -> forall a b e,
      vmap_inner_join_with kcmp' strat f' (map (entry_map q g) a) (map (entry_map q h) b) (he e) =
      done_map (joined_map g he) (vmap_inner_join_with kcmp strat f a b e).
    Proof using Hq. join inner_i_map. Qed.
  End IPR.

  (** by value *)
  Section IP.
    Context {V V' W W' E E' : Type} (g : V -> V') (h : W -> W') (he : E -> E').
    Notation his := (fun s : ipstate (K * V) (K * W) * E =>
      (ip_map (entry_map q g) (entry_map q h) (fst s), he (snd s))).
    Lemma ip_emit_map (m : ipstate (K * V) (K * W)) k o :
      ip_emit (ip_map (entry_map q g) (entry_map q h) m) (q k) (option_map g o) =
      ip_map (entry_map q g) (entry_map q h) (ip_emit m k o).
    Proof using.
      destruct o as [x|]; [|reflexivity]. cbn [option_map ip_emit]. unfold ip_map. cbn [ip_a ip_b ip_drop_b].
      change (q k, g x) with (entry_map q g (k, x)). now rewrite bd_push_map.
    Qed.
    Ltac emit F := match goal with |- ?l = omap _ ?o => change (l = omap his o) end; apply (call_map he (ojarg_map q g h) (option_map g)) with (1 := F); [intros y|reflexivity];
      apply (ip_emit_map (MkIp _ _ _)).
    Lemma outer_p_map f f' : follows he (ojarg_map q g h) (option_map g) f f' ->
      forall s, merge (OuterJoinOp_p kcmp' f') strat (his s) = omap his (merge (OuterJoinOp_p kcmp f) strat s).
    Proof using Hq.
      intros F s. apply (merge_map his) with (fa := entry_map q g) (fb := entry_map q h);
        cbn [mo_a mo_b mo_cmp mo_from_a mo_from_b mo_coll OuterJoinOp_p].
      - reflexivity.
      - reflexivity.
      - intros x y; unfold kvcmp; cbn [fst entry_map]; now rewrite Hq.
      - intros s0 n. apply (for_n_map his). intros [[l l2 l3] e]. unfold ojp_a, ip_map. cbn [fst snd ip_a ip_b ip_drop_b]. rewrite bd_pop_front_map.
        destruct (bd_pop_front l) as [[[k v] bd]|]; [|reflexivity]. cbn [option_map entry_map fst snd]. cbv zeta.
        change (OJLeft (q k) (g v)) with (ojarg_map q g h (OJLeft k v)). emit F.
      - intros s0 n. apply (for_n_map his). intros [[l l2 l3] e]. unfold ojp_b, ip_map. cbn [fst snd ip_a ip_b ip_drop_b].
        destruct l2 as [|[k v] b]; [reflexivity|]. cbn [map entry_map fst snd]. cbv zeta.
        change (OJRight (q k) (h v)) with (ojarg_map q g h (OJRight k v)). emit F.
      - intros [[l l2 l3] e]. unfold ojp_coll, ip_map. cbn [fst snd ip_a ip_b ip_drop_b]. rewrite bd_pop_front_map.
        destruct (bd_pop_front l) as [[[k v] bd]|]; [|reflexivity]. cbn [option_map entry_map fst snd].
        destruct l2 as [|[k2 w] b]; [reflexivity|]. cbn [map entry_map fst snd]. cbv zeta.
        change (OJBoth (q k) (g v) (h w)) with (ojarg_map q g h (OJBoth k v w)). emit F.
    Qed.
  End IP.

  Section Rest.
    Context {V V' E E' : Type} (g : V -> V') (he : E -> E').
    Notation en := (entry_map q g).
    Lemma vmap_combine_with_map f f' : follows he (fun p => (g (fst p), g (snd p))) g f f' -> forall a b e,
      vmap_combine_with kcmp' strat f' (map en a) (map en b) (he e) =
      done_map (joined_map g he) (vmap_combine_with kcmp strat f a b e).
    Proof using Hq.
      intros F a b e. unfold vmap_combine_with.
      match goal with |- to_done ?p (merge ?o _ _) = _ =>
        transitivity (to_done p (merge o strat (ip_map en en (ip_new a b), he e))); [reflexivity|] end.
      rewrite (outer_p_map g g he (combine_clos f)) with (s := (ip_new a b, e)); [now apply to_done_map|].
      intros e0 [k v|k v|k v w]; cbn [ojarg_map combine_clos fst snd cres_map option_map]; [reflexivity|reflexivity|].
      change (g v, g w) with ((fun p => (g (fst p), g (snd p))) (v, w)). rewrite F.
      destruct (f e0 (v, w)) as [e1 [x|]]; reflexivity.
    Qed.
    Lemma vmap_merge_with_map a b e :
      vmap_merge_with kcmp' strat (map en a) (map en b) (he e) = done_map (joined_map g he) (vmap_merge_with kcmp strat a b e).
    Proof using Hq. unfold vmap_merge_with. apply vmap_combine_with_map. now intros e0 [x y]. Qed.
    Lemma kprobe_map (m : list (K * V)) k : bsearch (kprobe kcmp' (q k)) (map en m) = bsearch (kprobe kcmp k) m.
    Proof using Hq. apply bsearch_map. intros [x v]. unfold kprobe. cbn [fst entry_map]. now rewrite Hq. Qed.
    Lemma vmap_get_map (m : list (K * V)) k : vmap_get kcmp' (map en m) (q k) = option_map g (vmap_get kcmp m k).
    Proof using Hq.
      unfold vmap_get. rewrite kprobe_map. destruct (bsearch _ m); try reflexivity. rewrite nth_error_map.
      now destruct (nth_error m i).
    Qed.
    Lemma vmap_get_count_map (m : list (K * V)) k : vmap_get_count kcmp' (map en m) (q k) = vmap_get_count kcmp m k.
    Proof using Hq.
      unfold vmap_get_count, bs_count. rewrite map_length. f_equal. apply bs_loop_map. intros [x v]. unfold kprobe.
      cbn [fst entry_map]. now rewrite Hq.
    Qed.
    Lemma vmap_get_mut_map (m : list (K * V)) k (w : V -> V) (w' : V' -> V') : (forall v, w' (g v) = g (w v)) ->
      vmap_get_mut kcmp' (map en m) (q k) w' = (map en (fst (vmap_get_mut kcmp m k w)), snd (vmap_get_mut kcmp m k w)).
    Proof using Hq.
      intros H. unfold vmap_get_mut. rewrite kprobe_map. destruct (bsearch _ m); try reflexivity. rewrite nth_error_map.
      destruct (nth_error m i) as [[x v]|]; [|reflexivity]. cbn [option_map entry_map fst snd]. rewrite H, <- set_at_map. reflexivity.
    Qed.
    Lemma vmap_insert_map (m : list (K * V)) k v : vmap_insert kcmp' (map en m) (q k) (g v) =
      rmap (fun r => (map en (fst r), option_map g (snd r))) (vmap_insert kcmp m k v).
    Proof using Hq.
      unfold vmap_insert. rewrite kprobe_map. destruct (bsearch _ m); try reflexivity.
      - rewrite nth_error_map. destruct (nth_error m i) as [[x u]|]; [|reflexivity].
        cbn [option_map entry_map fst snd rmap rbind]. now rewrite <- set_at_map.
      - cbn [rmap rbind fst snd option_map]. now rewrite <- insert_at_map.
    Qed.
    Lemma vmap_insert_all_map ps : forall m : list (K * V),
      vmap_insert_all kcmp' (map en m) (map en ps) = rmap (map en) (vmap_insert_all kcmp m ps).
    Proof using Hq.
      induction ps as [|[k v] ps IH]; intros m; [reflexivity|]. cbn [map vmap_insert_all entry_map fst snd]. rewrite vmap_insert_map.
      apply rmap_bind. intros [m' o]. apply IH.
    Qed.
    Lemma vmap_from_iter_map (l : list (K * V)) : vmap_from_iter kcmp' (map en l) = option_map (map en) (vmap_from_iter kcmp l).
    Proof using Hq. unfold vmap_from_iter. now apply (sort_dedup_by_key_map en q). Qed.
    Lemma vmap_extend_map (m items : list (K * V)) e :
      vmap_extend kcmp' strat (map en m) (map en items) (he e) = option_map (done_map (joined_map g he)) (vmap_extend kcmp strat m items e).
    Proof using Hq.
      unfold vmap_extend. rewrite vmap_from_iter_map. destruct (vmap_from_iter kcmp items) as [b|]; [|reflexivity].
      cbn [option_map]. now rewrite vmap_merge_with_map.
    Qed.
    Lemma vmap_visit_map_map (l : list (K * V)) : vmap_visit_map kcmp' (map en l) = map en (vmap_visit_map kcmp l).
    Proof using Hq.
      unfold vmap_visit_map. rewrite (sort_by_map en (by_key fst kcmp) (by_key fst kcmp')).
      - apply dedup_map. intros [x v] [y w]. cbn [entry_map fst snd]. now apply eqb_nat.
      - intros [x v] [y w]. unfold by_key. cbn [entry_map fst snd]. apply Hq.
    Qed.
    Lemma vmap_check_order_map (m : list (K * V)) : vmap_check_order kcmp' (map en m) = vmap_check_order kcmp m.
    Proof using Hq.
      unfold vmap_check_order. rewrite skipn_map. generalize (skipn 1 m) as n. induction m as [|x m IH]; intros n; [reflexivity|].
      destruct n as [|y n]; [reflexivity|]. cbn [map combine forallb fst snd entry_map]. now rewrite Hq, IH.
    Qed.
    Lemma vmap_eqb_map veqb veqb' (Hv : forall x y, veqb' (g x) (g y) = veqb x y) (a : list (K * V)) : forall b,
      vmap_eqb kcmp' veqb' (map en a) (map en b) = vmap_eqb kcmp veqb a b.
    Proof using Hq.
      induction a as [|[x v] a IH]; intros [|[y w] b]; cbn [map vmap_eqb]; try reflexivity. cbn [entry_map fst snd].
      rewrite Hv. rewrite <- IH. unfold vmap_eqb. now rewrite (eqb_nat q kcmp).
    Qed.
    Lemma vmap_cmp_map vcmp vcmp' (Hv : forall x y, vcmp' (g x) (g y) = vcmp x y) (a b : list (K * V)) :
      vmap_cmp kcmp' vcmp' (map en a) (map en b) = vmap_cmp kcmp vcmp a b.
    Proof using Hq.
      unfold vmap_cmp. apply vset_cmp_map. intros [x v] [y w]. unfold pair_cmp. cbn [entry_map fst snd]. now rewrite Hq, Hv.
    Qed.
    Lemma vmap_retain_map p p' (m : list (K * V)) : (forall x, p' (en x) = p x) ->
      vmap_retain (map en m) p' = map en (vmap_retain m p).
    Proof using. intros H. now apply filter_nat. Qed.
  End Rest.
End Maps.

(** ** total maps and sets *)
Definition tmap_map {K K' V V'} (q : K -> K') (g : V -> V') (m : tmap K V) : tmap K' V' :=
  TMap (map (entry_map q g) (tm_map m)) (g (tm_default m)).
Definition tset_map {T T'} (f : T -> T') (s : tset T) : tset T' := TSet (map f (ts_elements s)) (ts_negated s).
Section TMaps.
  Context {K K' : Type} (kcmp : K -> K -> comparison) (kcmp' : K' -> K' -> comparison) (q : K -> K')
    (Hq : forall x y, kcmp' (q x) (q y) = kcmp x y) (strat : nat -> nat -> bool).
  Context {V V' : Type} (g : V -> V') (veqb : V -> V -> bool) (veqb' : V' -> V' -> bool) (Hv : forall x y, veqb' (g x) (g y) = veqb x y).
  Notation tm := (tmap_map q g).
  Lemma tmap_new_map m d : tmap_new veqb' (map (entry_map q g) m) (g d) = tm (tmap_new veqb m d).
  Proof using Hv.
    unfold tmap_new, tmap_map. cbn [tm_map tm_default]. f_equal. apply vmap_retain_map. intros [k v].
    cbn [entry_map snd]. now rewrite Hv.
  Qed.
  Lemma tmap_index_map m k : tmap_index kcmp' (tm m) (q k) = g (tmap_index kcmp m k).
  Proof using Hq.
    unfold tmap_index. cbn [tmap_map tm_map tm_default]. rewrite (vmap_get_map kcmp kcmp' q Hq g).
    now destruct (vmap_get kcmp (tm_map m) k).
  Qed.
  Definition answer_map {E E' X X'} (he : E -> E') (h : X -> X') (r : E * cres X) : E' * cres X' := (he (fst r), cres_map h (snd r)).
  Lemma tmap_combine_ref_map {E E'} (he : E -> E') f f' : follows he (fun p => (g (fst p), g (snd p))) g f f' -> forall a b e,
    tmap_combine_ref kcmp' strat veqb' f' (tm a) (tm b) (he e) =
    option_map (answer_map he tm) (tmap_combine_ref kcmp strat veqb f a b e).
  Proof using Hq Hv.
    intros F0 a b e.
    assert (F : forall e v w, f' (he e) (g v, g w) = (he (fst (f e (v, w))), cres_map g (snd (f e (v, w))))) by (intros e0 v w; apply (F0 e0 (v, w))).
    unfold tmap_combine_ref. cbn [tmap_map tm_map tm_default].
    rewrite F. destruct (f e (tm_default a, tm_default b)) as [e1 [d|]]; [|reflexivity].
    cbn [fst snd cres_map]. cbv zeta.
    match goal with |- match vmap_outer_join _ _ ?c' _ _ _ with _ => _ end = option_map _ (match vmap_outer_join _ _ ?c _ _ _ with _ => _ end) =>
      assert (Q : follows he (ojarg_map q g g) (option_map g) c c') end.
    { intros e0 [k v|k v|k v w]; cbn [ojarg_map].
      - rewrite F. destruct (f e0 (v, tm_default b)) as [e2 [x|]]; cbn [fst snd cres_map]; [|reflexivity].
        rewrite Hv. now destruct (negb _).
      - rewrite F. destruct (f e0 (tm_default a, v)) as [e2 [x|]]; cbn [fst snd cres_map]; [|reflexivity].
        rewrite Hv. now destruct (negb _).
      - rewrite F. destruct (f e0 (v, w)) as [e2 [x|]]; cbn [fst snd cres_map]; [|reflexivity].
        rewrite Hv. now destruct (negb _). }
    rewrite (vmap_outer_join_map kcmp kcmp' q Hq strat g g g he _ _ Q).
    destruct (vmap_outer_join kcmp strat _ (tm_map a) (tm_map b) e1) as [[r e2]|[r e2]|]; reflexivity.
  Qed.
  Lemma tmap_eqb_map a b : tmap_eqb kcmp' veqb' (tm a) (tm b) = tmap_eqb kcmp veqb a b.
  Proof using Hq Hv. unfold tmap_eqb. cbn [tmap_map tm_map]. now apply vmap_eqb_map. Qed.
  Lemma tmap_cmp_map vcmp vcmp' (Hc : forall x y, vcmp' (g x) (g y) = vcmp x y) a b :
    tmap_cmp kcmp' vcmp' (tm a) (tm b) = tmap_cmp kcmp vcmp a b.
  Proof using Hq. unfold tmap_cmp. cbn [tmap_map tm_map tm_default]. now rewrite (vmap_cmp_map kcmp kcmp' q Hq g vcmp vcmp' Hc), Hc. Qed.
End TMaps.
Lemma filter_map_entries_map {K K' V V' W W' E E'} (q : K -> K') (g : V -> V') (h : W -> W') (he : E -> E') weqb weqb' f f' d :
  (forall x y, weqb' (h x) (h y) = weqb x y) -> follows he g h f f' -> forall l e,
  filter_map_entries weqb' f' (h d) (map (entry_map q g) l) (he e) =
  answer_map he (map (entry_map q h)) (filter_map_entries weqb f d l e).
Proof.
  intros Hw F. induction l as [|[k v] l IH]; intros e; [reflexivity|]. cbn [map filter_map_entries entry_map fst snd].
  rewrite F. destruct (f e v) as [e1 [w|]]; cbn [fst snd cres_map]; [|reflexivity]. rewrite IH.
  destruct (filter_map_entries weqb f d l e1) as [e2 [r|]]; cbn [answer_map fst snd cres_map]; [|reflexivity].
  rewrite Hw. now destruct (negb _).
Qed.
Lemma tmap_map_values_map {K K' V V' W W' E E'} (q : K -> K') (g : V -> V') (h : W -> W') (he : E -> E') weqb weqb' f f' :
  (forall x y, weqb' (h x) (h y) = weqb x y) -> follows he g h f f' -> forall m e,
  tmap_map_values weqb' f' (tmap_map q g m) (he e) = answer_map he (tmap_map q h) (tmap_map_values weqb f m e).
Proof.
  intros Hw F m e. unfold tmap_map_values. cbn [tmap_map tm_map tm_default]. rewrite F.
  destruct (f e (tm_default m)) as [e1 [d|]]; cbn [fst snd cres_map]; [|reflexivity].
  rewrite (filter_map_entries_map q g h he weqb weqb' f f' d Hw F).
  destruct (filter_map_entries weqb f d (tm_map m) e1) as [e2 [r|]]; reflexivity.
Qed.

Section TSets.
  Context {T T' : Type} (cmp : T -> T -> comparison) (cmp' : T' -> T' -> comparison) (f : T -> T')
    (Hf : forall x y, cmp' (f x) (f y) = cmp x y) (strat : nat -> nat -> bool).
  Notation ts := (tset_map f).
  Ltac two := intros [a [|]] [b [|]]; cbv delta [tset_and tset_or tset_xor tset_sub tset_is_subset tset_is_superset tset_is_disjoint
      tset_and_assign tset_or_assign tset_xor_assign tset_sub_assign mk mka] beta;
    cbn [tset_map ts_negated ts_elements xorb];
    rewrite ?(vset_union_map cmp cmp' f Hf strat), ?(vset_intersection_map cmp cmp' f Hf strat), ?(vset_difference_map cmp cmp' f Hf strat),
      ?(vset_symmetric_difference_map cmp cmp' f Hf strat), ?(vset_is_subset_map cmp cmp' f Hf strat),
      ?(vset_is_superset_map cmp cmp' f Hf strat), ?(vset_is_disjoint_map cmp cmp' f Hf strat),
      ?(vset_bitand_assign_map cmp cmp' f Hf strat), ?(vset_bitor_assign_map cmp cmp' f Hf strat),
      ?(vset_bitxor_assign_map cmp cmp' f Hf strat), ?(vset_sub_assign_map cmp cmp' f Hf strat);
    try reflexivity;
    match goal with |- rmap _ (rmap _ ?x) = _ => now destruct x | |- match done_map _ ?x with _ => _ end = _ => now destruct x end.
  Lemma tset_and_map : forall a b, tset_and cmp' strat (ts a) (ts b) = rmap ts (tset_and cmp strat a b).
  Proof using Hf. two. Qed.
  Lemma tset_or_map : forall a b, tset_or cmp' strat (ts a) (ts b) = rmap ts (tset_or cmp strat a b).
  Proof using Hf. two. Qed.
  Lemma tset_xor_map : forall a b, tset_xor cmp' strat (ts a) (ts b) = rmap ts (tset_xor cmp strat a b).
  Proof using Hf. two. Qed.
  Lemma tset_sub_map : forall a b, tset_sub cmp' strat (ts a) (ts b) = rmap ts (tset_sub cmp strat a b).
  Proof using Hf. two. Qed.
  Lemma tset_and_assign_map : forall a b, tset_and_assign cmp' strat (ts a) (ts b) = done_map ts (tset_and_assign cmp strat a b).
  Proof using Hf. two. Qed.
  Lemma tset_or_assign_map : forall a b, tset_or_assign cmp' strat (ts a) (ts b) = done_map ts (tset_or_assign cmp strat a b).
  Proof using Hf. two. Qed.
  Lemma tset_xor_assign_map : forall a b, tset_xor_assign cmp' strat (ts a) (ts b) = done_map ts (tset_xor_assign cmp strat a b).
  Proof using Hf. two. Qed.
  Lemma tset_sub_assign_map : forall a b, tset_sub_assign cmp' strat (ts a) (ts b) = done_map ts (tset_sub_assign cmp strat a b).
  Proof using Hf. two. Qed.
  Lemma tset_is_subset_map : forall a b, tset_is_subset cmp' strat (ts a) (ts b) = tset_is_subset cmp strat a b.
  Proof using Hf. two. Qed.
  Lemma tset_is_superset_map a b : tset_is_superset cmp' strat (ts a) (ts b) = tset_is_superset cmp strat a b.
  Proof using Hf. unfold tset_is_superset. now rewrite tset_is_subset_map. Qed.
  Lemma tset_is_disjoint_map : forall a b, tset_is_disjoint cmp' strat (ts a) (ts b) = tset_is_disjoint cmp strat a b.
  Proof using Hf. two. Qed.
  Lemma tset_contains_map s x : tset_contains cmp' (ts s) (f x) = tset_contains cmp s x.
  Proof using Hf. unfold tset_contains. cbn [tset_map ts_negated ts_elements]. now rewrite (vset_contains_map cmp cmp' f Hf). Qed.
  Lemma tset_insert_map s x : tset_insert cmp' (ts s) (f x) = rmap ts (tset_insert cmp s x).
  Proof using Hf.
    unfold tset_insert. cbn [tset_map ts_negated ts_elements].
    rewrite (vset_insert_map cmp cmp' f Hf), (vset_remove_map cmp cmp' f Hf). destruct (negb (ts_negated s)).
    - now destruct (vset_insert cmp (ts_elements s) x).
    - now destruct (vset_remove cmp (ts_elements s) x).
  Qed.
  Lemma tset_remove_map s x : tset_remove cmp' (ts s) (f x) = rmap ts (tset_remove cmp s x).
  Proof using Hf.
    unfold tset_remove. cbn [tset_map ts_negated ts_elements].
    rewrite (vset_insert_map cmp cmp' f Hf), (vset_remove_map cmp cmp' f Hf). destruct (ts_negated s).
    - now destruct (vset_insert cmp (ts_elements s) x).
    - now destruct (vset_remove cmp (ts_elements s) x).
  Qed.
  Lemma tset_eqb_map a b : tset_eqb cmp' (ts a) (ts b) = tset_eqb cmp a b.
  Proof using Hf. unfold tset_eqb. cbn [tset_map ts_negated ts_elements]. now rewrite (vset_eqb_map cmp cmp' f Hf). Qed.
End TSets.

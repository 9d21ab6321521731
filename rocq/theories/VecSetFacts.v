From Verif Require Export VecSetModel MergeFacts DedupFacts.

Section SetFacts.
  Context {T : Type} {cmp : T -> T -> comparison} (L : OrdLaws cmp).

  Local Notation id := (fun x : T => x).

  Lemma ksorted_id l : ksorted (cmp := cmp) id l <-> sorted cmp l.
  Proof. unfold ksorted. now rewrite map_id. Qed.

  Definition sel (b : bool) (x : T) : option T := if b then Some x else None.

  (** all four set operations: take from a / take from b / take a on collision *)
  Definition setop (ta tb tc : bool) {S} (M : msm S T T) : mop S T T :=
    MkMop (ms_a M) (ms_b M) (tcmp cmp)
      (fun m n => adv_a M m n ta)
      (fun m n => adv_b M m n tb)
      (fun m => obind (adv_a M m 1 tc) (fun m => adv_b M m 1 false)).

  Lemma SetUnionOp_eq {S} (M : msm S T T) : SetUnionOp cmp M = setop true true true M.
  Proof. reflexivity. Qed.
  Lemma SetIntersectionOp_eq {S} (M : msm S T T) : SetIntersectionOp cmp M = setop false false true M.
  Proof. reflexivity. Qed.
  Lemma SetDiffOpt_eq {S} (M : msm S T T) : SetDiffOpt cmp M = setop true false false M.
  Proof. reflexivity. Qed.
  Lemma SetXorOp_eq {S} (M : msm S T T) : SetXorOp cmp M = setop true true false M.
  Proof. reflexivity. Qed.

  Definition set_ref (ta tb tc : bool) (a b : list T) : list T :=
    tape_ref (kcmp := cmp) id id (sel ta) (sel tb) (fun x _ => sel tc x) a b.

  Lemma omap_sel (t : bool) (l : list T) : omap (sel t) l = if t then l else [].
  Proof.
    induction l as [|x l IH]; simpl; [now destruct t|].
    unfold omap in *. simpl. rewrite IH. destruct t; reflexivity.
  Qed.

  Lemma cmp_agrees_setop ta tb tc {S} (M : msm S T T) a b :
    cmp_agrees (kcmp := cmp) id id (setop ta tb tc M) a b.
  Proof. intros x y _ _. reflexivity. Qed.

  (** *** SliceIterator based states *)
  Lemma push_all_clone (l : list T) r : push_all CloneConverter l r = (r ++ l, true).
  Proof.
    revert r. induction l as [|x l IH]; intros r; simpl; [now rewrite app_nil_r|].
    rewrite IH, <- app_assoc. reflexivity.
  Qed.

  Local Notation VM := (vs_msm (R := T) (@CloneConverter T) (@CloneConverter T)).

  Lemma vs_adv_a_ok (s : vstate T T T) n t :
    n <= length (vs_a s) ->
    vs_adv_a CloneConverter s n t =
    Cont (MkVs (skipn n (vs_a s)) (vs_b s) (vs_r s ++ if t then firstn n (vs_a s) else [])).
  Proof.
    intros H. unfold vs_adv_a, si_take_front, si_drop_front.
    apply Nat.leb_le in H. rewrite H. destruct t.
    - now rewrite push_all_clone.
    - now rewrite app_nil_r.
  Qed.

  Lemma vs_adv_b_ok (s : vstate T T T) n t :
    n <= length (vs_b s) ->
    vs_adv_b CloneConverter s n t =
    Cont (MkVs (vs_a s) (skipn n (vs_b s)) (vs_r s ++ if t then firstn n (vs_b s) else [])).
  Proof.
    intros H. unfold vs_adv_b, si_take_front, si_drop_front.
    apply Nat.leb_le in H. rewrite H. destruct t.
    - now rewrite push_all_clone.
    - now rewrite app_nil_r.
  Qed.

  Lemma vs_coll ta tb tc (s : vstate T T T) x a y b :
    vs_a s = x :: a -> vs_b s = y :: b ->
    mo_coll (setop ta tb tc VM) s = Cont (MkVs a b (vs_r s ++ if tc then [x] else [])).
  Proof.
    intros Ha Hb. cbn [setop mo_coll adv_a adv_b vs_msm].
    rewrite vs_adv_a_ok by (rewrite Ha; simpl; lia). cbn [obind].
    rewrite vs_adv_b_ok by (cbn; rewrite Hb; simpl; lia).
    cbn [vs_a vs_b vs_r]. rewrite Ha, Hb. simpl. rewrite app_nil_r.
    destruct tc; reflexivity.
  Qed.

  Lemma vs_advancing ta tb tc : advancing (setop ta tb tc VM).
  Proof.
    constructor.
    - intros s n s' Hn. cbn in *. rewrite vs_adv_a_ok by assumption. intros [= <-]. auto.
    - intros s n s' Hn. cbn in *. rewrite vs_adv_b_ok by assumption. intros [= <-]. auto.
    - intros s x a y b s' Ha Hb. rewrite (vs_coll _ _ _ s x a y b) by assumption.
      intros [= <-]. auto.
  Qed.

  Lemma vs_pointwise ta tb tc a0 b0 :
    pointwise (kcmp := cmp) id id (sel ta) (sel tb) (fun x _ => sel tc x) (setop ta tb tc VM) vs_r a0 b0.
  Proof.
    constructor.
    - intros s n _ _ Hn. cbn in *. rewrite vs_adv_a_ok by assumption. eexists. split; [reflexivity|].
      simpl. now rewrite omap_sel.
    - intros s n _ _ Hn. cbn in *. rewrite vs_adv_b_ok by assumption. eexists. split; [reflexivity|].
      simpl. now rewrite omap_sel.
    - intros s x a y b _ _ Ha Hb _. rewrite (vs_coll _ _ _ s x a y b) by assumption.
      eexists. split; [reflexivity|]. simpl. destruct tc; reflexivity.
  Qed.

  Lemma vs_merge_set strat ta tb tc a b :
    sorted cmp a -> sorted cmp b ->
    vs_merge strat (setop ta tb tc VM) a b = Ok (set_ref ta tb tc a b).
  Proof.
    intros Sa Sb. unfold vs_merge.
    destruct (merge_pointwise L id id (sel ta) (sel tb) (fun x _ => sel tc x)
       (setop ta tb tc VM) vs_r (vs_advancing ta tb tc) strat (vs_new a b))
      as (s' & E & Et & _); auto using vs_pointwise, cmp_agrees_setop.
    - now apply ksorted_id.
    - now apply ksorted_id.
    - rewrite E. simpl. rewrite Et. reflexivity.
  Qed.

  (** *** In-place states *)
  Definition total_conv (tb : bool) (conv : T -> option T) : Prop :=
    tb = true -> forall y, conv y = Some y.

  Lemma bd_extend_ok conv n (bd : builder T) b :
    (forall y, conv y = Some y) -> n <= length b ->
    bd_extend conv n bd b = (MkB (bd_tgt bd ++ firstn n b) (bd_src bd) (bd_drop bd), skipn n b, true).
  Proof.
    intros Hc. revert bd b. induction n as [|n IH]; intros bd b Hn; simpl.
    - rewrite app_nil_r. destruct bd; reflexivity.
    - destruct b as [|y b]; simpl in Hn; [lia|]. rewrite Hc, IH by lia. simpl.
      now rewrite <- app_assoc.
  Qed.

  Lemma ip_adv_b_ok conv tb s n :
    total_conv tb conv -> n <= length (ip_b s) ->
    ip_adv_b conv s n tb =
    Cont (MkIp (MkB (bd_tgt (ip_a s) ++ if tb then firstn n (ip_b s) else []) (bd_src (ip_a s)) (bd_drop (ip_a s)))
               (skipn n (ip_b s)) (ip_drop_b s ++ if tb then [] else firstn n (ip_b s))).
  Proof.
    intros Hc Hn. unfold ip_adv_b. destruct tb.
    - rewrite bd_extend_ok by auto. now rewrite app_nil_r.
    - rewrite app_nil_r. destruct (ip_a s); reflexivity.
  Qed.

  Lemma ip_adv_a_ok (s : ipstate T T) n t :
    ip_adv_a s n t =
    Cont (MkIp (MkB (bd_tgt (ip_a s) ++ if t then firstn n (bd_src (ip_a s)) else [])
                    (skipn n (bd_src (ip_a s)))
                    (bd_drop (ip_a s) ++ if t then [] else firstn n (bd_src (ip_a s))))
               (ip_b s) (ip_drop_b s)).
  Proof.
    unfold ip_adv_a, bd_consume. destruct t; now rewrite app_nil_r.
  Qed.

  Lemma ip_coll ta tb tc conv s x a y b :
    bd_src (ip_a s) = x :: a -> ip_b s = y :: b ->
    mo_coll (setop ta tb tc (ip_msm conv)) s =
    Cont (MkIp (MkB (bd_tgt (ip_a s) ++ if tc then [x] else []) a
                    (bd_drop (ip_a s) ++ if tc then [] else [x]))
               b (ip_drop_b s ++ [y])).
  Proof.
    intros Ha Hb. cbn [setop mo_coll adv_a adv_b ip_msm].
    rewrite ip_adv_a_ok. cbn [obind]. unfold ip_adv_b. cbn [ip_a ip_b ip_drop_b].
    rewrite Ha, Hb. reflexivity.
  Qed.

  Lemma ip_advancing ta tb tc conv : total_conv tb conv -> advancing (setop ta tb tc (ip_msm conv)).
  Proof.
    intros Hc. constructor.
    - intros s n s' Hn. cbn in *. intros [= <-]. simpl. unfold bd_consume. destruct ta; auto.
    - intros s n s' Hn. cbn in *. rewrite ip_adv_b_ok by assumption. intros [= <-]. auto.
    - intros s x a y b s' Ha Hb. rewrite (ip_coll _ _ _ _ s x a y b) by assumption.
      intros [= <-]. auto.
  Qed.

  Lemma ip_pointwise ta tb tc conv a0 b0 : total_conv tb conv ->
    pointwise (kcmp := cmp) id id (sel ta) (sel tb) (fun x _ => sel tc x)
      (setop ta tb tc (ip_msm conv)) (fun s => bd_tgt (ip_a s)) a0 b0.
  Proof.
    intros Hc. constructor.
    - intros s n _ _ Hn. cbn in *. rewrite ip_adv_a_ok. eexists. split; [reflexivity|].
      simpl. now rewrite omap_sel.
    - intros s n _ _ Hn. cbn in *. rewrite ip_adv_b_ok by assumption. eexists. split; [reflexivity|].
      simpl. now rewrite omap_sel.
    - intros s x a y b _ _ Ha Hb _. rewrite (ip_coll _ _ _ _ s x a y b) by assumption.
      eexists. split; [reflexivity|]. simpl. destruct tc; reflexivity.
  Qed.

  (** nothing is lost: every state holds the same multiset *)
  Definition ip_all (s : ipstate T T) : list T :=
    bd_tgt (ip_a s) ++ (bd_drop (ip_a s) ++ bd_src (ip_a s)) ++ (ip_drop_b s ++ ip_b s).

  Lemma perm_move (a b c d e f : list T) :
    Permutation ((a ++ d) ++ (b ++ e) ++ (c ++ f)) (a ++ (b ++ d ++ e) ++ (c ++ f)).
  Proof.
    rewrite <- !app_assoc. apply Permutation_app_head.
    rewrite !app_assoc. do 2 apply Permutation_app_tail.
    apply Permutation_app_tail. apply Permutation_app_comm.
  Qed.

  Lemma ip_step_perm ta tb tc conv s s' e :
    total_conv tb conv ->
    (match e with EvA n => n <= length (bd_src (ip_a s)) | EvB n => n <= length (ip_b s)
     | EvC => bd_src (ip_a s) <> [] /\ ip_b s <> [] end) ->
    step (setop ta tb tc (ip_msm conv)) e s = Cont s' -> Permutation (ip_all s) (ip_all s').
  Proof.
    intros Hc Hpre. destruct s as [[tg sr dr] b db]. destruct e as [n|n|]; cbn in Hpre.
    - cbn. intros [= <-]. unfold ip_all, bd_consume. cbn [ip_a ip_b ip_drop_b bd_tgt bd_src bd_drop].
      destruct ta; cbn [bd_tgt bd_src bd_drop].
      + symmetry. etransitivity; [apply perm_move|]. now rewrite firstn_skipn.
      + rewrite <- (app_assoc dr (firstn n sr)). now rewrite firstn_skipn.
    - cbn. rewrite ip_adv_b_ok by assumption. intros [= <-]. unfold ip_all.
      cbn [ip_a ip_b ip_drop_b bd_tgt bd_src bd_drop]. destruct tb.
      + rewrite app_nil_r. rewrite <- !app_assoc. apply Permutation_app_head.
        rewrite <- (firstn_skipn n b) at 1. set (u := firstn n b). set (v := skipn n b).
        rewrite !app_assoc. apply Permutation_app_tail.
        rewrite <- !app_assoc. rewrite (Permutation_app_comm u).
        now rewrite <- !app_assoc.
      + rewrite app_nil_r. rewrite <- (app_assoc db (firstn n b)). now rewrite firstn_skipn.
    - destruct Hpre as [Ha Hb]. destruct sr as [|x sr]; [congruence|].
      destruct b as [|y b]; [congruence|]. cbn [step].
      rewrite (ip_coll _ _ _ _ (MkIp (MkB tg (x :: sr) dr) (y :: b) db) x sr y b) by reflexivity.
      intros [= <-]. unfold ip_all. cbn [ip_a ip_b ip_drop_b bd_tgt bd_src bd_drop].
      rewrite <- (app_assoc db [y]). cbn [app]. destruct tc; cbn [app].
      + rewrite app_nil_r. symmetry. etransitivity; [apply perm_move|]. reflexivity.
      + rewrite app_nil_r. rewrite <- (app_assoc dr [x]). reflexivity.
  Qed.

  Lemma ip_run_perm ta tb tc conv a b evs :
    total_conv tb conv -> ok_sched (kcmp := cmp) id id a b evs ->
    forall s s', bd_src (ip_a s) = a -> ip_b s = b ->
    run (setop ta tb tc (ip_msm conv)) evs s = Cont s' -> Permutation (ip_all s) (ip_all s').
  Proof.
    intros Hc H.
    induction H as [|a0 a1 b evs Hne Hlt H IH|a b0 b1 evs Hne Hgt H IH|x a y b evs E H IH];
      intros s s' Ha Hb Hr; cbn [run] in Hr.
    - injection Hr as <-. reflexivity.
    - destruct (step _ _ s) as [s1|s1|s1|] eqn:E; try discriminate. cbn [obind] in Hr.
      pose proof E as E'. apply ip_step_perm in E'; auto; [|rewrite Ha, app_length; lia].
      rewrite E'. pose proof (ip_advancing ta tb tc conv Hc) as AD.
      cbn [step] in E. apply (ad_a _ AD) in E as [Q1 Q2]; [|cbn; rewrite Ha, app_length; lia].
      cbn [setop mo_a mo_b ip_msm ms_a ms_b] in Q1, Q2.
      rewrite Ha, skipn_app_exact in Q1. apply IH; auto. congruence.
    - destruct (step _ _ s) as [s1|s1|s1|] eqn:E; try discriminate. cbn [obind] in Hr.
      pose proof E as E'. apply ip_step_perm in E'; auto; [|rewrite Hb, app_length; lia].
      rewrite E'. pose proof (ip_advancing ta tb tc conv Hc) as AD.
      cbn [step] in E. apply (ad_b _ AD) in E as [Q1 Q2]; [|cbn; rewrite Hb, app_length; lia].
      cbn [setop mo_a mo_b ip_msm ms_a ms_b] in Q1, Q2.
      rewrite Hb, skipn_app_exact in Q2. apply IH; auto. congruence.
    - destruct (step _ _ s) as [s1|s1|s1|] eqn:E1; try discriminate. cbn [obind] in Hr.
      pose proof E1 as E'.
      apply ip_step_perm in E'; auto; [|rewrite Ha, Hb; split; discriminate].
      rewrite E'. pose proof (ip_advancing ta tb tc conv Hc) as AD.
      cbn [step] in E1. destruct (ad_c _ AD s x a y b s1 Ha Hb E1) as [Q1 Q2].
      apply IH; auto.
  Qed.

  Lemma ip_merge_set strat ta tb tc conv a b :
    total_conv tb conv -> sorted cmp a -> sorted cmp b ->
    exists da db,
      ip_merge strat (setop ta tb tc (ip_msm conv)) a b = Done (set_ref ta tb tc a b, da, db) /\
      Permutation (set_ref ta tb tc a b ++ da ++ db) (a ++ b).
  Proof.
    intros Hc Sa Sb. unfold ip_merge.
    destruct (merge_sched L id id (setop ta tb tc (ip_msm conv)) (ip_advancing ta tb tc conv Hc)
      strat (ip_new a b)) as (evs & Ok & E).
    - now apply ksorted_id.
    - now apply ksorted_id.
    - apply cmp_agrees_setop.
    - destruct (run_pointwise id id (sel ta) (sel tb) (fun x _ => sel tc x)
        (setop ta tb tc (ip_msm conv)) (fun s => bd_tgt (ip_a s)) a b
        (ip_advancing ta tb tc conv Hc) (ip_pointwise ta tb tc conv a b Hc) a b evs Ok
        (incl_refl _) (incl_refl _) (ip_new a b)) as (s' & E2 & Et & Fa & Fb); auto.
      rewrite E, E2. cbn [to_done]. rewrite Et. cbn in Fa, Fb. rewrite Fa, Fb, !app_nil_r.
      exists (bd_drop (ip_a s')), (ip_drop_b s'). split; [reflexivity|].
      pose proof (ip_run_perm ta tb tc conv a b evs Hc Ok (ip_new a b) s' eq_refl eq_refl E2) as P.
      unfold ip_all in P. rewrite Et, Fa, Fb in P. cbn in P. rewrite !app_nil_r in P.
      symmetry. exact P.
  Qed.

  (** by reference *)
  Lemma ipr_adv_b_ok conv tb s n :
    total_conv tb conv -> n <= length (ipr_b s) ->
    ipr_adv_b conv s n tb =
    Cont (MkIpr (MkB (bd_tgt (ipr_a s) ++ if tb then firstn n (ipr_b s) else []) (bd_src (ipr_a s)) (bd_drop (ipr_a s)))
               (skipn n (ipr_b s))).
  Proof.
    intros Hc Hn. unfold ipr_adv_b. destruct tb.
    - now rewrite bd_extend_ok by auto.
    - rewrite app_nil_r. destruct (ipr_a s); reflexivity.
  Qed.

  Lemma ipr_adv_a_ok (s : iprstate T T) n t :
    ipr_adv_a s n t =
    Cont (MkIpr (MkB (bd_tgt (ipr_a s) ++ if t then firstn n (bd_src (ipr_a s)) else [])
                    (skipn n (bd_src (ipr_a s)))
                    (bd_drop (ipr_a s) ++ if t then [] else firstn n (bd_src (ipr_a s))))
               (ipr_b s)).
  Proof.
    unfold ipr_adv_a, bd_consume. destruct t; now rewrite app_nil_r.
  Qed.

  Lemma ipr_coll ta tb tc conv s x a y b :
    bd_src (ipr_a s) = x :: a -> ipr_b s = y :: b ->
    mo_coll (setop ta tb tc (ipr_msm conv)) s =
    Cont (MkIpr (MkB (bd_tgt (ipr_a s) ++ if tc then [x] else []) a
                    (bd_drop (ipr_a s) ++ if tc then [] else [x]))
               b).
  Proof.
    intros Ha Hb. cbn [setop mo_coll adv_a adv_b ipr_msm].
    rewrite ipr_adv_a_ok. cbn [obind]. unfold ipr_adv_b. cbn [ipr_a ipr_b].
    rewrite Ha, Hb. reflexivity.
  Qed.

  Lemma ipr_advancing ta tb tc conv : total_conv tb conv -> advancing (setop ta tb tc (ipr_msm conv)).
  Proof.
    intros Hc. constructor.
    - intros s n s' Hn. cbn in *. intros [= <-]. simpl. unfold bd_consume. destruct ta; auto.
    - intros s n s' Hn. cbn in *. rewrite ipr_adv_b_ok by assumption. intros [= <-]. auto.
    - intros s x a y b s' Ha Hb. rewrite (ipr_coll _ _ _ _ s x a y b) by assumption.
      intros [= <-]. auto.
  Qed.

  Lemma ipr_pointwise ta tb tc conv a0 b0 : total_conv tb conv ->
    pointwise (kcmp := cmp) id id (sel ta) (sel tb) (fun x _ => sel tc x)
      (setop ta tb tc (ipr_msm conv)) (fun s => bd_tgt (ipr_a s)) a0 b0.
  Proof.
    intros Hc. constructor.
    - intros s n _ _ Hn. cbn in *. rewrite ipr_adv_a_ok. eexists. split; [reflexivity|].
      simpl. now rewrite omap_sel.
    - intros s n _ _ Hn. cbn in *. rewrite ipr_adv_b_ok by assumption. eexists. split; [reflexivity|].
      simpl. now rewrite omap_sel.
    - intros s x a y b _ _ Ha Hb _. rewrite (ipr_coll _ _ _ _ s x a y b) by assumption.
      eexists. split; [reflexivity|]. simpl. destruct tc; reflexivity.
  Qed.

  Lemma ipr_merge_set strat ta tb tc conv a b :
    total_conv tb conv -> sorted cmp a -> sorted cmp b ->
    ipr_merge strat (setop ta tb tc (ipr_msm conv)) a b = Done (set_ref ta tb tc a b).
  Proof.
    intros Hc Sa Sb. unfold ipr_merge.
    destruct (merge_pointwise L id id (sel ta) (sel tb) (fun x _ => sel tc x)
       (setop ta tb tc (ipr_msm conv)) (fun s => bd_tgt (ipr_a s))
       (ipr_advancing ta tb tc conv Hc) strat (ipr_new a b))
      as (s' & E & Et & _); auto using ipr_pointwise, cmp_agrees_setop.
    - now apply ksorted_id.
    - now apply ksorted_id.
    - rewrite E. simpl. rewrite Et. reflexivity.
  Qed.

  (** *** union_with: NoConverter panics as soon as an element of b has to be taken *)
  Local Notation UN := (setop true true true (ipr_msm (@NoConverter T T))).

  Lemma un_advancing : advancing UN.
  Proof.
    constructor.
    - intros s n s' Hn. cbn in *. intros [= <-]. auto.
    - intros s n s' Hn. cbn in *. unfold ipr_adv_b. destruct n as [|n]; simpl.
      + intros [= <-]. auto.
      + destruct (ipr_b s) as [|y b] eqn:Q; [simpl in Hn; lia|]. discriminate.
    - intros s x a y b s' Ha Hb. rewrite (ipr_coll _ _ _ _ s x a y b) by assumption.
      intros [= <-]. auto.
  Qed.

  Lemma un_run a b evs :
    ok_sched (kcmp := cmp) id id a b evs -> sorted cmp b ->
    forall s, bd_src (ipr_a s) = a -> ipr_b s = b ->
    ((forall y, In y b -> mem cmp y a) /\
      exists s', run UN evs s = Cont s' /\ bd_tgt (ipr_a s') = bd_tgt (ipr_a s) ++ a) \/
    (exists y b1 b2, b = b1 ++ y :: b2 /\ (forall z, In z b1 -> mem cmp z a) /\ ~ mem cmp y a /\
      exists s' a1 a2, run UN evs s = Panic s' /\ a = a1 ++ a2 /\
                       bd_tgt (ipr_a s') = bd_tgt (ipr_a s) ++ a1 /\
                       (forall z, In z a1 -> cmp z y = Lt) /\ (forall z, In z a2 -> cmp z y = Gt)).
  Proof.
    induction 1 as [|a0 a1 b evs Hne Hlt H IH|a b0 b1 evs Hne Hgt H IH|x a y b evs E H IH];
      intros Sb s Ha Hb; cbn [run].
    - left. split; [intros ? []|]. exists s. now rewrite app_nil_r.
    - cbn [step setop mo_from_a adv_a ipr_msm]. rewrite ipr_adv_a_ok. cbn [obind].
      match goal with |- context [run _ evs ?s1] => destruct (IH Sb s1) as [(Q & s' & R & Ht)|(y & b1 & b2 & Eb & Hb1 & Q & s' & u & v & R & Ha1 & Ht & Hu & Hv)] end.
      + cbn. now rewrite Ha, skipn_app_exact.
      + cbn. assumption.
      + left. split; [intros y Hy; apply mem_app; auto|]. exists s'. split; [assumption|].
        rewrite Ht. cbn. rewrite Ha, firstn_app_exact. now rewrite app_assoc.
      + right. assert (Hy : In y b) by (rewrite Eb; apply in_or_app; right; now left).
        exists y, b1, b2. split; [assumption|]. split; [intros z Hz; apply mem_app; auto|]. split.
        { intros Hm. apply mem_app in Hm as [(z & Hz & Ez)|Hm]; auto.
          pose proof (Hlt z y Hz Hy) as C. cbn in C. apply (cmp_sym L) in Ez. congruence. }
        exists s', (a0 ++ u), v. split; [assumption|]. split; [now rewrite Ha1, app_assoc|]. split.
        { rewrite Ht. cbn. rewrite Ha, firstn_app_exact. now rewrite app_assoc. }
        split; [|assumption]. intros z Hz. apply in_app_or in Hz as [Hz|Hz]; [exact (Hlt z y Hz Hy)|auto].
    - right. destruct b0 as [|y b0]; [congruence|]. exists y, [], (b0 ++ b1).
      split; [reflexivity|]. split; [intros ? []|]. split.
      { intros (z & Hz & Ez).
        pose proof (Hgt z y Hz (or_introl eq_refl)) as C. cbn in C.
        apply (cmp_sym L) in Ez. congruence. }
      cbn [step setop mo_from_b adv_b ipr_msm]. unfold ipr_adv_b. rewrite Hb. cbn.
      eexists. exists [], a. split; [reflexivity|]. split; [reflexivity|]. split.
      { cbn. now rewrite app_nil_r. }
      split; [intros ? []|]. intros z Hz. exact (Hgt z y Hz (or_introl eq_refl)).
    - apply sorted_cons_inv in Sb as [Sb Hyb].
      cbn [step]. rewrite (ipr_coll _ _ _ _ s x a y b) by assumption. cbn [obind].
      match goal with |- context [run _ evs ?s1] => destruct (IH Sb s1) as [(Q & s' & R & Ht)|(w & b1 & b2 & Eb & Hb1 & Q & s' & u & v & R & Ha1 & Ht & Hu & Hv)] end; cbn; auto.
      + left. split.
        { intros w [<-|Hw]; apply mem_cons; [left; now apply (cmp_sym L)|auto]. }
        exists s'. split; auto. rewrite Ht. cbn. now rewrite <- app_assoc.
      + right. assert (Hw : In w b) by (rewrite Eb; apply in_or_app; right; now left).
        assert (C : cmp x w = Lt) by (rewrite (cmp_eq_l L _ _ w E); now apply Hyb).
        exists w, (y :: b1), b2. split; [now rewrite Eb|]. split.
        { intros z [<-|Hz]; apply mem_cons; [left; now apply (cmp_sym L)|auto]. }
        split.
        { intros Hm. apply mem_cons in Hm as [Hm|Hm]; auto. apply (cmp_sym L) in Hm. congruence. }
        exists s', (x :: u), v. split; [assumption|]. split; [now rewrite Ha1|]. split.
        { rewrite Ht. cbn. now rewrite <- app_assoc. }
        split; [|assumption]. intros z [<-|Hz]; auto.
  Qed.

  Lemma union_with_cases strat a b :
    sorted cmp a -> sorted cmp b ->
    ((forall y, In y b -> mem cmp y a) /\ vset_union_with cmp strat a b = Done a) \/
    (exists y b1 b2, b = b1 ++ y :: b2 /\ (forall z, In z b1 -> mem cmp z a) /\ ~ mem cmp y a /\
      exists a1 a2, vset_union_with cmp strat a b = Unwound a1 /\ a = a1 ++ a2 /\
        (forall z, In z a1 -> cmp z y = Lt) /\ (forall z, In z a2 -> cmp z y = Gt)).
  Proof.
    intros Sa Sb. unfold vset_union_with, ipr_merge. rewrite SetUnionOp_eq.
    destruct (merge_sched L id id UN un_advancing strat (ipr_new a b)) as (evs & Ok & E).
    - now apply ksorted_id.
    - now apply ksorted_id.
    - apply cmp_agrees_setop.
    - rewrite E. destruct (un_run a b evs Ok Sb (ipr_new a b) eq_refl eq_refl)
        as [(Q & s' & R & Ht)|(y & b1 & b2 & Eb & Hb1 & Q & s' & u & v & R & Ha1 & Ht & Hu & Hv)]; rewrite R; cbn [to_done]; rewrite Ht; cbn.
      + left. auto.
      + right. exists y, b1, b2. repeat (split; [assumption|]). exists u, v. auto.
  Qed.

  (** *** BoolOp *)
  Lemma bs_adv_a_ok (s : bstate T T) n : n <= length (bs_a s) ->
    bs_adv_a s n false = Cont (MkBs (skipn n (bs_a s)) (bs_b s) (bs_r s)).
  Proof. intros H. unfold bs_adv_a, si_drop_front. apply Nat.leb_le in H. now rewrite H. Qed.
  Lemma bs_adv_b_ok (s : bstate T T) n : n <= length (bs_b s) ->
    bs_adv_b s n false = Cont (MkBs (bs_a s) (skipn n (bs_b s)) (bs_r s)).
  Proof. intros H. unfold bs_adv_b, si_drop_front. apply Nat.leb_le in H. now rewrite H. Qed.

  Local Notation BO := (fun ta tb tc => setop ta tb tc (bs_msm (A := T) (B := T))).

  Lemma bs_coll ta tb tc (s : bstate T T) x a y b :
    bs_a s = x :: a -> bs_b s = y :: b ->
    mo_coll (BO ta tb tc) s =
    if tc then Stop (MkBs (bs_a s) (bs_b s) true) else Cont (MkBs a b (bs_r s)).
  Proof.
    intros Ha Hb. cbn [setop mo_coll adv_a adv_b bs_msm]. destruct tc; [reflexivity|].
    rewrite bs_adv_a_ok by (rewrite Ha; simpl; lia). cbn [obind].
    rewrite bs_adv_b_ok by (cbn; rewrite Hb; simpl; lia). cbn. now rewrite Ha, Hb.
  Qed.

  Lemma bs_advancing ta tb tc : advancing (BO ta tb tc).
  Proof.
    constructor.
    - intros s n s' Hn. cbn in *. destruct ta; [discriminate|]. rewrite bs_adv_a_ok by assumption.
      intros [= <-]. auto.
    - intros s n s' Hn. cbn in *. destruct tb; [discriminate|]. rewrite bs_adv_b_ok by assumption.
      intros [= <-]. auto.
    - intros s x a y b s' Ha Hb. rewrite (bs_coll _ _ _ s x a y b) by assumption.
      destruct tc; [discriminate|]. intros [= <-]. auto.
  Qed.

  Definition nonempty (l : list T) : bool := match l with [] => false | _ => true end.

  Lemma bs_run ta tb tc a b evs :
    ok_sched (kcmp := cmp) id id a b evs ->
    forall s, bs_a s = a -> bs_b s = b -> bs_r s = false ->
    exists s', (run (BO ta tb tc) evs s = Cont s' \/ run (BO ta tb tc) evs s = Stop s') /\
               bs_r s' = nonempty (set_ref ta tb tc a b).
  Proof.
    induction 1 as [|a0 a1 b evs Hne Hlt H IH|a b0 b1 evs Hne Hgt H IH|x a y b evs E H IH];
      intros s Ha Hb Hf; cbn [run step].
    - exists s. split; [now left|]. assumption.
    - unfold set_ref. rewrite tape_ref_app_a by assumption. rewrite omap_sel.
      cbn [setop mo_from_a adv_a bs_msm]. destruct ta.
      + cbn. eexists. split; [right; reflexivity|]. destruct a0; [congruence|reflexivity].
      + rewrite bs_adv_a_ok by (rewrite Ha, app_length; lia). cbn [obind].
        apply IH; cbn; auto. now rewrite Ha, skipn_app_exact.
    - unfold set_ref. rewrite tape_ref_app_b by assumption. rewrite omap_sel.
      cbn [setop mo_from_b adv_b bs_msm]. destruct tb.
      + cbn. eexists. split; [right; reflexivity|]. destruct b0; [congruence|reflexivity].
      + rewrite bs_adv_b_ok by (rewrite Hb, app_length; lia). cbn [obind].
        apply IH; cbn; auto. now rewrite Hb, skipn_app_exact.
    - unfold set_ref. rewrite tape_ref_cons, E.
      rewrite (bs_coll _ _ _ s x a y b) by assumption. destruct tc.
      + cbn. eexists. split; [right; reflexivity|]. reflexivity.
      + cbn [obind sel o2l app]. apply IH; auto.
  Qed.

  Lemma bs_merge_set strat ta tb tc a b :
    sorted cmp a -> sorted cmp b ->
    bs_merge strat (BO ta tb tc) a b = Ok (nonempty (set_ref ta tb tc a b)).
  Proof.
    intros Sa Sb. unfold bs_merge.
    destruct (merge_sched L id id (BO ta tb tc) (bs_advancing ta tb tc) strat (bs_new a b))
      as (evs & Ok & E).
    - now apply ksorted_id.
    - now apply ksorted_id.
    - apply cmp_agrees_setop.
    - rewrite E. destruct (bs_run ta tb tc a b evs Ok (bs_new a b) eq_refl eq_refl eq_refl)
        as (s' & [R|R] & Hr); rewrite R; simpl; now rewrite Hr.
  Qed.

  (** *** Elements of the reference result *)
  Lemma set_ref_sorted ta tb tc a b :
    sorted cmp a -> sorted cmp b -> sorted cmp (set_ref ta tb tc a b).
  Proof.
    intros Sa Sb. apply ksorted_id. unfold set_ref.
    apply (tape_ref_sorted L id id (sel ta) (sel tb) (fun x _ => sel tc x) id);
      try (now apply ksorted_id).
    - intros x r. unfold sel. destruct ta; [|discriminate]. intros [= <-]. apply (cmp_refl L).
    - intros x r. unfold sel. destruct tb; [|discriminate]. intros [= <-]. apply (cmp_refl L).
    - intros x y r _. unfold sel. destruct tc; [|discriminate]. intros [= <-]. apply (cmp_refl L).
  Qed.

  Lemma set_ref_In ta tb tc a b x :
    sorted cmp a -> sorted cmp b ->
    (In x (set_ref ta tb tc a b) <->
      (ta = true /\ In x a /\ ~ mem cmp x b) \/
      (tb = true /\ In x b /\ ~ mem cmp x a) \/
      (tc = true /\ In x a /\ mem cmp x b)).
  Proof.
    intros Sa Sb. unfold set_ref.
    rewrite (tape_ref_In L) by now apply ksorted_id.
    unfold sel, mem. split.
    - intros [(u & Hu & Hn & E)|[(v & Hv & Hn & E)|(u & v & Hu & Hv & Huv & E)]].
      + destruct ta; [|discriminate]. injection E as <-. left. repeat split; auto.
        intros (y & Hy & Ey). exact (Hn y Hy Ey).
      + destruct tb; [|discriminate]. injection E as <-. right; left. repeat split; auto.
        intros (y & Hy & Ey). exact (Hn y Hy (cmp_sym L _ _ Ey)).
      + destruct tc; [|discriminate]. injection E as <-. right; right. repeat split; eauto.
    - intros [(-> & Hx & Hn)|[(-> & Hx & Hn)|(-> & Hx & (y & Hy & Ey))]].
      + left. exists x. repeat split; auto. intros y Hy Ey. apply Hn. eauto.
      + right; left. exists x. repeat split; auto. intros y Hy Ey. apply Hn.
        exists y. split; auto. now apply (cmp_sym L).
      + right; right. exists x, y. auto.
  Qed.

  Lemma set_ref_mem ta tb tc a b x :
    sorted cmp a -> sorted cmp b ->
    (mem cmp x (set_ref ta tb tc a b) <->
      (ta = true /\ mem cmp x a /\ ~ mem cmp x b) \/
      (tb = true /\ mem cmp x b /\ ~ mem cmp x a) \/
      (tc = true /\ mem cmp x a /\ mem cmp x b)).
  Proof.
    intros Sa Sb. split.
    - intros (y & Hy & E). apply set_ref_In in Hy; auto.
      rewrite !(mem_eq L x y _ E).
      destruct Hy as [(? & ? & ?)|[(? & ? & ?)|(? & ? & ?)]].
      + left. repeat split; auto. now apply (mem_In L).
      + right; left. repeat split; auto. now apply (mem_In L).
      + right; right. repeat split; auto. now apply (mem_In L).
    - assert (Q : forall y, cmp x y = Eq -> In y (set_ref ta tb tc a b) ->
                            mem cmp x (set_ref ta tb tc a b)) by (intros; eexists; eauto).
      intros [(-> & (y & Hy & E) & Hn)|[(-> & (y & Hy & E) & Hn)|(-> & (y & Hy & E) & Hn)]];
        rewrite (mem_eq L x y _ E) in Hn; apply (Q y E), set_ref_In; auto.
  Qed.

  Lemma nonempty_false l : nonempty l = false <-> l = [].
  Proof. destruct l; simpl; split; congruence. Qed.

  Lemma list_nil_In (l : list T) : l = [] <-> forall x, ~ In x l.
  Proof.
    split; [intros -> ? []|]. destruct l as [|x l]; auto. intros H. exfalso. apply (H x). now left.
  Qed.

  (** *** binary search on a set *)
  Lemma search_cases l x : sorted cmp l ->
    (exists l1 y l2, l = l1 ++ y :: l2 /\ cmp x y = Eq /\ bsearch (probe cmp x) l = BsOk (length l1)
       /\ (forall z, In z l1 -> cmp z x = Lt) /\ (forall z, In z l2 -> cmp x z = Lt)) \/
    (exists l1 l2, l = l1 ++ l2 /\ ~ mem cmp x l /\ bsearch (probe cmp x) l = BsErr (length l1)
       /\ (forall z, In z l1 -> cmp z x = Lt) /\ (forall z, In z l2 -> cmp x z = Lt)).
  Proof.
    intros Hs. apply ksorted_id in Hs.
    destruct (ksorted_split L id x l Hs) as (l1 & l2 & H1 & H2 & H3).
    assert (B1 : below (probe cmp x) l1)
      by (apply Forall_forall; intros z Hz; unfold probe; now rewrite H1).
    assert (B2 : above (probe cmp x) l2)
      by (apply Forall_forall; intros z Hz; unfold probe; now rewrite H2).
    assert (H2' : forall z, In z l2 -> cmp x z = Lt) by (intros z Hz; apply (cmp_lt_gt L); auto).
    destruct H3 as [->|(y & -> & E)].
    - right. exists l1, l2. repeat split; auto.
      + intros Hm. apply mem_app in Hm as [(z & Hz & E)|(z & Hz & E)].
        * apply H1 in Hz. apply (cmp_sym L) in E. congruence.
        * apply H2' in Hz. congruence.
      + now apply bsearch_err.
    - left. exists l1, y, l2. apply (cmp_sym L) in E. repeat split; auto.
      apply bsearch_ok; auto. unfold probe. now rewrite (cmp_sym L _ _ E).
  Qed.

  Lemma contains_spec l x : sorted cmp l -> (vset_contains cmp l x = true <-> mem cmp x l).
  Proof.
    intros Hs. unfold vset_contains.
    destruct (search_cases l x Hs) as [(l1 & y & l2 & -> & E & B & _)|(l1 & l2 & -> & Hn & B & _)];
      rewrite B.
    - split; auto. intros _. exists y. split; auto. apply in_or_app. right. now left.
    - split; [discriminate|tauto].
  Qed.

  Lemma insert_spec l x : sorted cmp l ->
    exists l', vset_insert cmp l x = Ok (l', negb (memb cmp x l)) /\ sorted cmp l' /\
      (forall z, In z l' <-> z = x \/ (In z l /\ cmp x z <> Eq)).
  Proof.
    intros Hs. unfold vset_insert.
    destruct (search_cases l x Hs)
      as [(l1 & y & l2 & -> & E & B & H1 & H2)|(l1 & l2 & -> & Hn & B & H1 & H2)]; rewrite B.
    - exists (l1 ++ x :: l2). rewrite set_at_app. apply sorted_app in Hs as (S1 & S2 & H3).
      apply sorted_cons_inv in S2 as [S2 H4].
      assert (Hm : memb cmp x (l1 ++ y :: l2) = true).
      { apply memb_spec. exists y. split; auto. apply in_or_app. right. now left. }
      rewrite Hm. split; [reflexivity|]. split.
      + apply sorted_app. repeat split; auto.
        * apply sorted_cons; auto.
        * intros u v Hu [<-|Hv]; auto. apply (cmp_lt_trans L _ x); auto.
      + intros z. rewrite !in_app_iff. simpl. split.
        * intros [Hz|[->|Hz]]; auto.
          -- right. split; auto. apply H1 in Hz. apply (cmp_lt_gt L) in Hz. congruence.
          -- right. split; auto. apply H2 in Hz. congruence.
        * intros [->|([Hz|[->|Hz]] & Ne)]; auto. congruence.
    - exists (l1 ++ x :: l2). rewrite insert_at_app. apply sorted_app in Hs as (S1 & S2 & H3).
      apply memb_false in Hn. rewrite Hn. split; [reflexivity|]. split.
      + apply sorted_app. repeat split; auto.
        * apply sorted_cons; auto.
        * intros u v Hu [<-|Hv]; auto.
      + intros z. rewrite !in_app_iff. simpl. split.
        * intros [Hz|[->|Hz]]; auto.
          -- right. split; auto. apply H1 in Hz. apply (cmp_lt_gt L) in Hz. congruence.
          -- right. split; auto. apply H2 in Hz. congruence.
        * intros [->|([Hz|Hz] & Ne)]; auto.
  Qed.

  Lemma remove_spec l x : sorted cmp l ->
    exists l', vset_remove cmp l x = Ok (l', memb cmp x l) /\ sorted cmp l' /\
      (forall z, In z l' <-> In z l /\ cmp x z <> Eq).
  Proof.
    intros Hs. unfold vset_remove.
    destruct (search_cases l x Hs)
      as [(l1 & y & l2 & -> & E & B & H1 & H2)|(l1 & l2 & -> & Hn & B & H1 & H2)]; rewrite B.
    - exists (l1 ++ l2). rewrite remove_at_app. apply sorted_app in Hs as (S1 & S2 & H3).
      apply sorted_cons_inv in S2 as [S2 H4].
      assert (Hm : memb cmp x (l1 ++ y :: l2) = true).
      { apply memb_spec. exists y. split; auto. apply in_or_app. right. now left. }
      rewrite Hm. split; [reflexivity|]. split.
      + apply sorted_app. repeat split; auto. intros u v Hu Hv. apply (cmp_lt_trans L _ x); auto.
      + intros z. rewrite !in_app_iff. simpl. split.
        * intros [Hz|Hz]; split; auto.
          -- apply H1 in Hz. apply (cmp_lt_gt L) in Hz. congruence.
          -- apply H2 in Hz. congruence.
        * intros ([Hz|[->|Hz]] & Ne); auto. congruence.
    - exists (l1 ++ l2). pose proof Hn as Hn'. apply memb_false in Hn. rewrite Hn. split; [reflexivity|].
      split; auto. intros z. split; [|tauto]. intros Hz. split; auto. intros E. apply Hn'.
      exists z. auto.
  Qed.

  (** *** equality and order *)
  Lemma vset_eqb_spec a b : vset_eqb cmp a b = true <-> Forall2 (fun x y => cmp x y = Eq) a b.
  Proof.
    revert b. induction a as [|x a IH]; intros [|y b]; simpl;
      try (split; [discriminate|intros H; inversion H]; fail).
    - split; auto.
    - rewrite andb_true_iff, IH, eqb_of_true. split.
      + intros [? ?]. constructor; auto.
      + intros H. inversion H; auto.
  Qed.

  Lemma Forall2_eq_mem a b x :
    Forall2 (fun x y => cmp x y = Eq) a b -> mem cmp x a <-> mem cmp x b.
  Proof.
    induction 1 as [|u v a b E H IH]; [tauto|].
    rewrite !mem_cons, IH, (cmp_eq_r L _ _ x E). tauto.
  Qed.

  Lemma vset_eq_ext a b : sorted cmp a -> sorted cmp b ->
    (vset_eqb cmp a b = true <-> forall x, mem cmp x a <-> mem cmp x b).
  Proof.
    intros Sa Sb. rewrite vset_eqb_spec. split.
    - intros H x. now apply Forall2_eq_mem.
    - now apply (sorted_mem_ext L).
  Qed.

  Lemma vset_cmp_opp a b : vset_cmp cmp b a = CompOpp (vset_cmp cmp a b).
  Proof.
    revert b. induction a as [|x a IH]; intros [|y b]; simpl; auto.
    rewrite (ord_opp L x y). destruct (cmp x y); simpl; auto.
  Qed.

  Lemma vset_cmp_trans a b c :
    vset_cmp cmp a b <> Gt -> vset_cmp cmp b c <> Gt -> vset_cmp cmp a c <> Gt.
  Proof.
    revert b c. induction a as [|x a IH]; intros [|y b] [|z c]; simpl; try congruence.
    destruct (cmp x y) eqn:E1; destruct (cmp y z) eqn:E2; try congruence.
    - rewrite (cmp_eq_trans L _ _ _ E1 E2). apply IH.
    - now rewrite (cmp_eq_l L _ _ z E1), E2.
    - now rewrite <- (cmp_eq_r L _ _ x E2), E1.
    - now rewrite (cmp_lt_trans L _ _ _ E1 E2).
  Qed.

  Lemma vset_cmp_laws : OrdLaws (vset_cmp cmp).
  Proof. constructor; [intros; apply vset_cmp_opp|apply vset_cmp_trans]. Qed.

  Lemma vset_cmp_eq a b : vset_cmp cmp a b = Eq <-> vset_eqb cmp a b = true.
  Proof.
    revert b. induction a as [|x a IH]; intros [|y b]; simpl; try (split; congruence).
    rewrite andb_true_iff, <- IH, eqb_of_true. destruct (cmp x y); split; try tauto; try congruence;
      intros [? ?]; congruence.
  Qed.

  Lemma vset_hash_eq {H} (hl : nat -> list H) h a b :
    (forall x y, cmp x y = Eq -> h x = h y) -> vset_eqb cmp a b = true ->
    vset_hash hl h a = vset_hash hl h b.
  Proof.
    intros Hh. rewrite vset_eqb_spec. intros F. unfold vset_hash.
    assert (Hlen : length a = length b) by (clear Hh; induction F; simpl; congruence).
    rewrite Hlen. f_equal. clear Hlen.
    induction F as [|x y a b E F IH]; simpl; [reflexivity|]. now rewrite (Hh x y E), IH.
  Qed.

  (** *** archive check *)
  Lemma check_order_spec l : vset_check_order cmp l = true <-> sorted cmp l.
  Proof.
    unfold vset_check_order. induction l as [|x l IH]; simpl; [split; auto; intros; apply sorted_nil|].
    destruct l as [|y l]; simpl.
    - split; auto. intros. apply sorted_single.
    - simpl in IH. rewrite andb_true_iff, IH. split.
      + intros [E S]. apply sorted_cons; auto. destruct (cmp x y) eqn:C; try discriminate.
        pose proof S as S'. apply sorted_cons_inv in S' as [_ Hy].
        intros z [<-|Hz]; auto. apply (cmp_lt_trans L _ y); auto.
      + intros S. apply sorted_cons_inv in S as [S Hx]. split; auto.
        rewrite (Hx y); auto. now left.
  Qed.
End SetFacts.

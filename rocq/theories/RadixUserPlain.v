(** With comparisons that have no effect and agree with an order, and clones that copy, the operations of
    RadixUserModel.v are those of RadixModel.v, RadixEffModel.v and RadixPureEffModel.v. *)
From Verif Require Export RadixUserModel.
From Verif Require Import RadixUserEngine RadixFacts.

Section Plain.
  Context {E K : Type} (kcmp : K -> K -> comparison) (u : ucode E K) (strat : nat -> nat -> bool).
  (** [==], [cmp] and [<] are those of [kcmp], without effects or panics *)
  Definition plain_code : Prop :=
    (forall e x y, u_eq u e (x, y) = (e, Ret (keqb kcmp x y))) /\
    (forall e x y, u_cmp u e (x, y) = (e, Ret (kcmp x y))) /\
    (forall e x y, u_lt u e (x, y) = (e, Ret (match kcmp x y with Lt => true | _ => false end))).
  Definition plain_clone {V} (cl : clos E V V) : Prop := forall e v, cl e v = (e, Ret v).
  (** the same answer, as a step that does nothing to the world *)
  Definition at_ {Y} (e : E) (r : res Y) : given_back E Y := RadixPureEffModel.quiet e r (fun y => Some (e, Ret y)).
  Context (P : plain_code) (L : OrdLaws kcmp).
  Notation PE := (proj1 P). Notation PC := (proj1 (proj2 P)). Notation PL := (proj2 (proj2 P)).

  Lemma ucommon_plain : forall a b e, ucommon u a b e = Some (e, Ret (common_prefix kcmp a b)).
  Proof using P.
    induction a as [|x a IH]; intros [|y b] e; cbn [ucommon common_prefix]; try reflexivity.
    rewrite PE. cbn [then_]. unfold keqb. destruct (kcmp x y); try reflexivity. now rewrite IH.
  Qed.
  Lemma uhead_cmp_plain {S V X} (s : S * E) (a : rtree K V) (b : rtree K X) : uhead_cmp u s a b = (s, head_cmp kcmp a b).
  Proof using P.
    destruct s as [m e]. unfold uhead_cmp, head_cmp. destruct (t_prefix a) as [|x p]; [reflexivity|].
    destruct (t_prefix b) as [|y q]; [reflexivity|]. cbn [fst snd]. now rewrite PC.
  Qed.

  Section Mat.
    Context {V : Type} (cl : clos E V V) (C : plain_clone cl).
    Lemma uclone_plain v e : uclone cl v e = Some (e, Ret v).
    Proof using C. destruct v; [|reflexivity]. cbn [uclone]. now rewrite C. Qed.
    Lemma umat_plain : forall (t : rtree K V) n e, umat cl t n e = at_ e (mat_short t n).
    Proof using C.
      induction t as [p v c IH] using rtree_ind'. intros n e. cbn [umat mat_short].
      destruct (n <? length p); [|reflexivity]. rewrite uclone_plain. cbn [then_].
      set (go1 := fix go (l : list (rtree K V)) (e : E) : given_back E (list (rtree K V)) := _).
      set (go2 := fix go (l : list (rtree K V)) : res (list (rtree K V)) := _).
      enough (G : go1 c e = at_ e (go2 c)) by (rewrite G; now destruct (go2 c)).
      induction IH as [|x l Hx _ IHl]; [reflexivity|]. cbn [go1 go2]. rewrite Hx.
      fold go1 go2. destruct (mat_short x 0); [|reflexivity..]. cbn [at_ RadixPureEffModel.quiet then_ rbind]. rewrite IHl. now destruct (go2 l).
    Qed.
    Lemma umat_all_plain : forall (l : list (rtree K V)) e, umat_all cl l e = at_ e (mat_all l).
    Proof using C.
      induction l as [|x l IH]; intros e; [reflexivity|]. cbn [umat_all mat_all]. rewrite umat_plain.
      destruct (mat_short x 0); [|reflexivity..]. cbn [at_ RadixPureEffModel.quiet then_ rbind]. rewrite IH. now destruct (mat_all l).
    Qed.
    Lemma uclone_tree_plain : forall (t : rtree K V) e, uclone_tree cl t e = Some (e, Ret t).
    Proof using C.
      induction t as [p v c IH] using rtree_ind'. intros e. cbn [uclone_tree]. rewrite uclone_plain. cbn [then_].
      set (go := fix go (l : list (rtree K V)) (e : E) : given_back E (list (rtree K V)) := _).
      enough (G : go c e = Some (e, Ret c)) by now rewrite G.
      induction IH as [|x l Hx _ IHl]; [reflexivity|]. cbn [go]. rewrite Hx. fold go. cbn [then_]. now rewrite IHl.
    Qed.
    (** copying does not run out of fuel *)
    Lemma mat_short_fuel : forall (t : rtree K V) n, mat_short t n <> OutOfFuel.
    Proof using.
      induction t as [p v c IH] using rtree_ind'. intros n. cbn [mat_short]. destruct (n <? length p); [|discriminate].
      set (go := fix go (l : list (rtree K V)) : res (list (rtree K V)) := _).
      enough (G : go c <> OutOfFuel) by (destruct (go c); cbn [rbind]; congruence).
      induction IH as [|x l Hx _ IHl]; [discriminate|]. cbn [go]. fold go. specialize (Hx 0).
      destruct (mat_short x 0); [|discriminate|congruence]. cbn [rbind]. destruct (go l); [discriminate|discriminate|congruence].
    Qed.
    Lemma umat_conv (t : rtree K V) e : umat cl t 0 e = Some (e, match mat_conv t with Some t' => Ret t' | None => Throw end).
    Proof using C.
      rewrite umat_plain. unfold mat_conv. pose proof (mat_short_fuel t 0). now destruct (mat_short t 0).
    Qed.
  End Mat.
  Lemma usort2_plain {V} (a b : rtree K V) e : has_head a = true -> has_head b = true ->
    exists c, sort_heads kcmp [a; b] = Ok c /\ usort2 u a b e = Some (e, Ret c).
  Proof using P L.
    unfold has_head, sort_heads, usort2. cbn [forallb]. unfold has_head. intros Ha Hb.
    destruct (t_prefix a) as [|x p] eqn:Pa; [discriminate|]. destruct (t_prefix b) as [|y q] eqn:Pb; [discriminate|].
    cbn [andb]. rewrite orb_true_r, PL. cbn [then_]. eexists. split; [reflexivity|]. f_equal. f_equal. f_equal.
    unfold sort_by. cbn [fold_right sort_insert]. unfold head_ord, head_cmp. rewrite Pa, Pb, (ord_opp L x y).
    now destruct (kcmp x y).
  Qed.

  (** ** Searching *)
  Section Find.
    Context {V : Type}.
    Lemma ufind_plain : forall fuel (t : rtree K V) key e, ufind_loop u fuel t key e = at_ e (find_loop kcmp fuel t key).
    Proof using P.
      induction fuel as [|fuel IH]; intros t key e; [reflexivity|]. cbn [ufind_loop find_loop].
      rewrite ucommon_plain. cbn [then_]. set (n := common_prefix kcmp (t_prefix t) key).
      destruct (_ && _); [reflexivity|]. destruct (_ =? 0); [reflexivity|]. destruct (_ =? 0); [|reflexivity].
      destruct (nth_error key n) as [c|]; [|reflexivity].
      rewrite (wbsearch_pure (fun x => match t_prefix x with h :: _ => Some (kcmp h c) | [] => None end)).
      2:{ intros s x. destruct (t_prefix x); [reflexivity|]. now rewrite PC. }
      destruct (bsearch _ _) as [i|i| |]; try reflexivity. destruct (nth_error (t_children t) i); [apply IH|reflexivity].
    Qed.
    Lemma uget_plain (t : rtree K V) key e : urt_get u t key e = at_ e (rt_get kcmp t key).
    Proof using P. unfold urt_get, ufind, rt_get, t_find. rewrite ufind_plain. now destruct (find_loop _ _ _ _). Qed.
    Lemma ucontains_plain (t : rtree K V) key e : urt_contains_key u t key e = at_ e (rt_contains_key kcmp t key).
    Proof using P. unfold urt_contains_key, ufind, rt_contains_key, t_find. rewrite ufind_plain. now destruct (find_loop _ _ _ _). Qed.
    Lemma uscan_plain (t : rtree K V) key e : urt_scan_prefix u t key e = at_ e (rt_scan_prefix kcmp t key).
    Proof using P.
      unfold urt_scan_prefix, ufind, rt_scan_prefix, t_find. rewrite ufind_plain.
      destruct (find_loop _ _ _ _) as [r| |]; [|reflexivity..]. now destruct r.
    Qed.
    Lemma ufilter_plain (cl : clos E V V) (C : plain_clone cl) (t : rtree K V) key e :
      urt_filter_prefix u cl t key e = at_ e (rt_filter_prefix kcmp t key).
    Proof using P.
      unfold urt_filter_prefix, ufind, rt_filter_prefix, t_find. rewrite ufind_plain.
      destruct (find_loop _ _ _ _) as [r| |]; [|reflexivity..]. destruct r as [[p v c]|[p v c] rt|]; [| |reflexivity];
        cbn [at_ RadixPureEffModel.quiet then_ rbind]; rewrite (uclone_tree_plain cl C); cbn [then_ t_prefix t_value t_children].
      - reflexivity.
      - now destruct (rt <=? length p).
    Qed.
  End Find.

  (** ** In place *)
  Section InPlace.
    Context {V X : Type} (rec rec' : rtree K V -> rtree K X -> E -> done (rtree K V * E)).
    Context (REC : forall a b e, rec' a b e = rec a b e).
    Context (ta tb : bool) (conv : rtree K X -> option (rtree K V)) (conv' : rtree K X -> E -> given_back E (rtree K V)).
    Context (CV : forall t e, conv' t e = Some (e, match conv t with Some t' => Ret t' | None => Throw end)).
    Lemma uextend_plain : forall n bd b e,
      uextend conv' n bd b e = quietly (let '(bd, b, ok) := bd_extend conv n bd b in
                                        if ok then Cont (MkIpr bd b) else Panic (MkIpr bd b)) e.
    Proof using CV.
      induction n as [|n IH]; intros bd b e; [reflexivity|]. cbn [uextend bd_extend]. destruct b as [|y b]; [reflexivity|].
      rewrite CV. destruct (conv y); [apply IH|reflexivity].
    Qed.
    Lemma uchildren_with_plain a b e :
      uchildren_with u strat rec' ta tb conv' a b e = echildren_with kcmp strat rec ta tb conv a b e.
    Proof using P REC CV.
      unfold uchildren_with, echildren_with. f_equal.
      apply (gmerge_pure (eop_with kcmp rec ta tb conv)); try reflexivity.
      - intros s x y. apply uhead_cmp_plain.
      - intros [m e0] n. cbn [uop_with eop_with mo_from_b fst snd ipr_msm adv_b]. unfold uadv_b, ipr_adv_b. cbn [fst snd].
        destruct tb; [|reflexivity]. rewrite uextend_plain. now destruct (bd_extend conv n (ipr_a m) (ipr_b m)) as [[bd b'] ok].
      - intros [m e0]. cbn [uop_with eop_with mo_coll]. unfold ucoll_with, ecoll_with.
        destruct (bd_src (ipr_a m)) as [|x a']; [reflexivity|]. destruct (ipr_b m) as [|y b']; [reflexivity|]. rewrite REC.
        now destruct (rec x y e0) as [[t e1]|[t e1]|].
    Qed.
  End InPlace.
  Lemma uno_plain {V X} (t : rtree K X) (e : E) : uno_conv (V := V) t e = Some (e, match NoConverter t with Some t' => Ret t' | None => Throw end).
  Proof using. reflexivity. Qed.
  Lemma finish_plain {V} p (v : option V) r : ufinish (E := E) (K := K) p v r = efinish p v r.
  Proof using. reflexivity. Qed.
  Lemma at_lift {V Y} (self : rtree K V) (r : res Y) e (k : Y -> E -> done (rtree K V * E)) : ulift self (at_ e r) k = elift self e r (fun y => k y e).
  Proof using. now destruct r. Qed.
  Lemma lift_ext {V Y} (self : rtree K V) (r : res Y) e (k k' : Y -> done (rtree K V * E)) :
    (forall y, r = Ok y -> k y = k' y) -> elift self e r k = elift self e r k'.
  Proof using. intros H. destruct r; [now apply H|reflexivity..]. Qed.
  Lemma split_plain {V} (self : rtree K V) n e (k k' : rtree K V -> done (rtree K V * E)) :
    (forall y, t_split self n = Ok y -> k y = k' y) -> usplit self n e k = elift self e (t_split self n) k'.
  Proof using. intros H. unfold usplit. destruct (t_split self n); [now apply H|reflexivity..]. Qed.
  Lemma value_ext {V} p (c : list (rtree K V)) r (k k' : option V -> E -> done (rtree K V * E)) :
    (forall v e, k v e = k' v e) -> uvalue p c r k = evalue p c r k'.
  Proof using. intros H. destruct r as [[v e] []]; [apply H|reflexivity]. Qed.

  Section OuterWith.
    Context {V : Type} (cl : clos E V V) (C : plain_clone cl) (f : mclos E V V).
    Lemma uupd_outer_plain v w e : uupd_outer cl f v w e = eupd_outer f v w e.
    Proof using C. destruct w as [w|], v as [v|]; cbn [uupd_outer eupd_outer]; try reflexivity. now rewrite C. Qed.
    Lemma uouter_with_plain : forall fuel self that e,
      uouter_with u strat cl f fuel self that e = eouter_with kcmp strat f fuel self that e.
    Proof using P L C.
      induction fuel as [|fuel IH]; intros self that e; [reflexivity|]. cbn [uouter_with eouter_with].
      rewrite ucommon_plain. cbn [ulift]. set (n := common_prefix kcmp (t_prefix self) (t_prefix that)).
      pose proof (fun a b e => uchildren_with_plain _ _ IH true true mat_conv _ (umat_conv cl C) a b e) as CH.
      destruct (n =? length (t_prefix self)), (n =? length (t_prefix that)); cbn [andb].
      - rewrite uupd_outer_plain. apply value_ext. intros v e1. now rewrite CH.
      - rewrite (umat_plain cl C), at_lift. apply lift_ext. intros t' _. now rewrite CH.
      - apply split_plain. intros s _. rewrite uupd_outer_plain. apply value_ext. intros v e1. now rewrite CH.
      - apply split_plain. intros s Qs. rewrite (umat_plain cl C), at_lift. apply lift_ext. intros t' Qt.
        destruct self as [p v c]. cbn [t_split] in Qs. destruct (Nat.ltb_spec n (length p)) as [Ln|]; [|discriminate].
        injection Qs as [= <-]. cbn [t_children app t_prefix t_value].
        destruct (usort2_plain (Node (skipn n p) v c) t' e) as (c' & Q1 & Q2).
        + unfold has_head. cbn [t_prefix]. destruct (skipn n p) eqn:Q; [|reflexivity].
          apply (f_equal (@length K)) in Q. rewrite skipn_length in Q. cbn [length] in Q. lia.
        + destruct that as [p2 v2 c2]. cbn [mat_short] in Qt. destruct (Nat.ltb_spec n (length p2)) as [Ln2|]; [|discriminate].
          match type of Qt with rbind ?r _ = _ => destruct r as [c2'| |]; [|discriminate..] end. injection Qt as [= <-].
          unfold has_head. cbn [t_prefix]. destruct (skipn n p2) eqn:Q; [|reflexivity].
          apply (f_equal (@length K)) in Q. rewrite skipn_length in Q. cbn [length] in Q. lia.
        + rewrite Q1, Q2. reflexivity.
    Qed.
  End OuterWith.

  Section InnerLeftWith.
    Context {V X : Type} (cx : clos E X X) (C : plain_clone cx) (f : mclos E V X).
    Lemma uupd_inner_plain v w e : uupd_inner f v w e = eupd_inner f v w e.
    Proof using. destruct w as [w|], v as [v|]; reflexivity. Qed.
    Lemma uupd_left_plain v w e : uupd_left f v w e = eupd_left f v w e.
    Proof using. destruct w as [w|], v as [v|]; reflexivity. Qed.
    Lemma uinner_with_plain : forall fuel self that e,
      uinner_with u strat cx f fuel self that e = einner_with kcmp strat f fuel self that e.
    Proof using P C.
      induction fuel as [|fuel IH]; intros self that e; [reflexivity|]. cbn [uinner_with einner_with].
      rewrite ucommon_plain. cbn [ulift]. set (n := common_prefix kcmp (t_prefix self) (t_prefix that)).
      pose proof (fun a b e => uchildren_with_plain _ _ IH false false NoConverter _ uno_plain a b e) as CH.
      destruct (n =? length (t_prefix self)), (n =? length (t_prefix that)); cbn [andb].
      - rewrite uupd_inner_plain. apply value_ext. intros v e1. now rewrite CH.
      - rewrite (umat_plain cx C), at_lift. apply lift_ext. intros t' _. now rewrite CH.
      - apply split_plain. intros s _. now rewrite CH.
      - reflexivity.
    Qed.
    Lemma uleft_with_plain : forall fuel self that e,
      uleft_with u strat cx f fuel self that e = eleft_with kcmp strat f fuel self that e.
    Proof using P C.
      induction fuel as [|fuel IH]; intros self that e; [reflexivity|]. cbn [uleft_with eleft_with].
      rewrite ucommon_plain. cbn [ulift]. set (n := common_prefix kcmp (t_prefix self) (t_prefix that)).
      pose proof (fun a b e => uchildren_with_plain _ _ IH true false NoConverter _ uno_plain a b e) as CH.
      destruct (n =? length (t_prefix self)), (n =? length (t_prefix that)); cbn [andb].
      - rewrite uupd_left_plain. apply value_ext. intros v e1. now rewrite CH.
      - rewrite (umat_plain cx C), at_lift. apply lift_ext. intros t' _. now rewrite CH.
      - apply split_plain. intros s _. now rewrite CH.
      - reflexivity.
    Qed.
  End InnerLeftWith.

  Section PrefixWith.
    Context {V X : Type} (cx : clos E X X) (C : plain_clone cx) (f : clos E X bool).
    Lemma hit_plain (self : rtree K V) w e (k k' : bool -> E -> done (rtree K V * E)) :
      (forall b e, k b e = k' b e) -> ulift self (uhit f w e) k = ehit f self w e k'.
    Proof using.
      intros H. destruct w as [w|]; cbn [uhit ehit ulift]; [|apply H]. destruct (f e w) as [e' [b|]]; [apply H|reflexivity].
    Qed.
    Lemma uremove_with_plain : forall fuel (self : rtree K V) that e,
      uremove_with u strat cx f fuel self that e = eremove_with kcmp strat f fuel self that e.
    Proof using P C.
      induction fuel as [|fuel IH]; intros self that e; [reflexivity|]. cbn [uremove_with eremove_with].
      rewrite ucommon_plain. cbn [ulift]. set (n := common_prefix kcmp (t_prefix self) (t_prefix that)).
      pose proof (fun a b e => uchildren_with_plain _ _ IH true false NoConverter _ uno_plain a b e) as CH.
      destruct (n =? length (t_prefix self)), (n =? length (t_prefix that)); cbn [andb].
      - apply hit_plain. intros b e1. destruct b; [reflexivity|]. now rewrite CH.
      - rewrite (umat_plain cx C), at_lift. apply lift_ext. intros t' _. now rewrite CH.
      - apply hit_plain. intros b e1. destruct b; [reflexivity|]. apply split_plain. intros s _. now rewrite CH.
      - reflexivity.
    Qed.
    Lemma uretain_with_plain : forall fuel (self : rtree K V) that e,
      uretain_with u strat cx f fuel self that e = eretain_with kcmp strat f fuel self that e.
    Proof using P C.
      induction fuel as [|fuel IH]; intros self that e; [reflexivity|]. cbn [uretain_with eretain_with].
      rewrite ucommon_plain. cbn [ulift]. set (n := common_prefix kcmp (t_prefix self) (t_prefix that)).
      pose proof (fun a b e => uchildren_with_plain _ _ IH false false NoConverter _ uno_plain a b e) as CH.
      destruct (n =? length (t_prefix self)), (n =? length (t_prefix that)); cbn [andb].
      - apply hit_plain. intros b e1. destruct b; [reflexivity|]. now rewrite CH.
      - rewrite (umat_plain cx C), at_lift. apply lift_ext. intros t' _. now rewrite CH.
      - apply hit_plain. intros b e1. destruct b; [reflexivity|]. apply split_plain. intros s _. now rewrite CH.
      - reflexivity.
    Qed.
  End PrefixWith.

  (** ** The borrowing combinations *)
  Section Pure.
    Context {V X : Type} (rec rec' : rtree K V -> rtree K X -> E -> given_back E (rtree K V)).
    Context (REC : forall a b e, rec' a b e = rec a b e).
    Context (ta tb : bool) (ca : rtree K V -> option (rtree K V)) (ca' : rtree K V -> E -> given_back E (rtree K V)).
    Context (cb : rtree K X -> option (rtree K V)) (cb' : rtree K X -> E -> given_back E (rtree K V)).
    Context (CA : forall t e, ca' t e = Some (e, match ca t with Some t' => Ret t' | None => Throw end)).
    Context (CB : forall t e, cb' t e = Some (e, match cb t with Some t' => Ret t' | None => Throw end)).
    Lemma upush_plain {Y} (conv : rtree K Y -> option (rtree K V)) (conv' : rtree K Y -> E -> given_back E (rtree K V)) :
      (forall t e, conv' t e = Some (e, match conv t with Some t' => Ret t' | None => Throw end)) ->
      forall l (a : list (rtree K V)) (b : list (rtree K X)) r e,
      upush conv' l a b r e = vquietly (let (r, ok) := push_all conv l r in if ok then Cont (MkVs a b r) else Panic (MkVs a b r)) e.
    Proof using.
      intros CV. induction l as [|y l IH]; intros a b r e; [reflexivity|]. cbn [upush push_all]. rewrite CV.
      destruct (conv y); [apply IH|reflexivity].
    Qed.
    Lemma uchildren_plain a b e :
      uchildren u strat rec' ta tb ca' cb' a b e = pchildren kcmp strat rec ta tb ca cb a b e.
    Proof using P REC CA CB.
      unfold uchildren, pchildren. rewrite (gmerge_pure (pop_with kcmp rec ta tb ca cb)); try reflexivity.
      - intros s x y. apply uhead_cmp_plain.
      - intros [m e0] n. cbn [uop_pure pop_with mo_from_a fst snd vs_msm adv_a]. unfold uvs_adv_a, vs_adv_a, si_take_front, si_drop_front. cbn [fst snd].
        destruct ta, (n <=? length (vs_a m)); try reflexivity. now rewrite (upush_plain ca ca' CA).
      - intros [m e0] n. cbn [uop_pure pop_with mo_from_b fst snd vs_msm adv_b]. unfold uvs_adv_b, vs_adv_b, si_take_front, si_drop_front. cbn [fst snd].
        destruct tb, (n <=? length (vs_b m)); try reflexivity. now rewrite (upush_plain cb cb' CB).
      - intros [m e0]. cbn [uop_pure pop_with mo_coll]. unfold ucoll_pure, pcoll.
        destruct (vs_a m) as [|x a']; [reflexivity|]. destruct (vs_b m) as [|y b']; [reflexivity|]. now rewrite REC.
    Qed.
  End Pure.
  Lemma at_then {Y Z} (r : res Y) e (k : Y -> E -> given_back E Z) : then_ (at_ e r) k = RadixPureEffModel.quiet e r (fun y => k y e).
  Proof using. now destruct r. Qed.
  Lemma quiet_ext {Y Z} (r : res Y) e (k k' : Y -> given_back E Z) :
    (forall y, r = Ok y -> k y = k' y) -> RadixPureEffModel.quiet e r k = RadixPureEffModel.quiet e r k'.
  Proof using. intros H. destruct r; [now apply H|reflexivity..]. Qed.
  Lemma then_ext {Y Z} (r : given_back E Y) (k k' : Y -> E -> given_back E Z) :
    (forall y e, k y e = k' y e) -> then_ r k = then_ r k'.
  Proof using. intros H. destruct r as [[e [y|]]|]; [apply H|reflexivity..]. Qed.
  Lemma mat_head {V} (t t' : rtree K V) n : mat_short t n = Ok t' -> has_head t' = true.
  Proof using.
    destruct t as [p v c]. cbn [mat_short]. destruct (Nat.ltb_spec n (length p)) as [Ln|]; [|discriminate]. intros Q.
    match type of Q with rbind ?r _ = _ => destruct r as [c'| |]; [|discriminate..] end. injection Q as [= <-].
    unfold has_head. cbn [t_prefix]. destruct (skipn n p) eqn:Q; [|reflexivity].
    apply (f_equal (@length K)) in Q. rewrite skipn_length in Q. cbn [length] in Q. lia.
  Qed.
  Section Outer.
    Context {V : Type} (cl : clos E V V) (C : plain_clone cl) (f : clos E (V * V) (option V)).
    Lemma uval_outer_plain v w e : uval_outer cl f v w e = pval_outer f v w e.
    Proof using C. destruct v as [v|], w as [w|]; cbn [uval_outer pval_outer]; rewrite ?(uclone_plain cl C); reflexivity. Qed.
    Lemma uouter_plain : forall fuel a b e, uouter u strat cl f fuel a b e = pouter kcmp strat f fuel a b e.
    Proof using P L C.
      induction fuel as [|fuel IH]; intros a b e; [reflexivity|]. cbn [uouter pouter].
      rewrite ucommon_plain. cbn [then_]. set (n := common_prefix kcmp (t_prefix a) (t_prefix b)).
      pose proof (fun a b e => uchildren_plain _ _ IH true true mat_conv _ mat_conv _ (umat_conv cl C) (umat_conv cl C) a b e) as CH.
      destruct (n =? length (t_prefix a)), (n =? length (t_prefix b)); cbn [andb].
      - rewrite uval_outer_plain. apply then_ext. intros v e1. now rewrite CH.
      - rewrite (umat_plain cl C), at_then. apply quiet_ext. intros t' _. rewrite (uclone_plain cl C). cbn [then_]. now rewrite CH.
      - rewrite (umat_plain cl C), at_then. apply quiet_ext. intros t' _. rewrite (uclone_plain cl C). cbn [then_]. now rewrite CH.
      - rewrite (umat_plain cl C), at_then. apply quiet_ext. intros a' Qa.
        rewrite (umat_plain cl C), at_then. apply quiet_ext. intros b' Qb.
        destruct (usort2_plain a' b' e (mat_head _ _ _ Qa) (mat_head _ _ _ Qb)) as (c & Q1 & Q2). now rewrite Q1, Q2.
    Qed.
  End Outer.
  Section InnerLeft.
    Context {V X : Type} (cl : clos E V V) (C : plain_clone cl) (cx : clos E X X) (Cx : plain_clone cx).
    Lemma uinner_plain (f : clos E (V * X) (option V)) : forall fuel a b e,
      uinner u strat cl cx f fuel a b e = pinner kcmp strat f fuel a b e.
    Proof using P C Cx.
      induction fuel as [|fuel IH]; intros a b e; [reflexivity|]. cbn [uinner pinner].
      rewrite ucommon_plain. cbn [then_]. set (n := common_prefix kcmp (t_prefix a) (t_prefix b)).
      pose proof (fun a b e => uchildren_plain _ _ IH false false mat_conv _ NoConverter _ (umat_conv cl C) uno_plain a b e) as CH.
      destruct (n =? length (t_prefix a)), (n =? length (t_prefix b)); cbn [andb].
      - apply then_ext. intros v e1. now rewrite CH.
      - rewrite (umat_plain cx Cx), at_then. apply quiet_ext. intros t' _. now rewrite CH.
      - rewrite (umat_plain cl C), at_then. apply quiet_ext. intros t' _. now rewrite CH.
      - reflexivity.
    Qed.
    Lemma uleft_plain (f : clos E (V * option X) (option V)) : forall fuel a b e,
      uleft u strat cl cx f fuel a b e = pleft kcmp strat f fuel a b e.
    Proof using P C Cx.
      induction fuel as [|fuel IH]; intros a b e; [reflexivity|]. cbn [uleft pleft].
      rewrite ucommon_plain. cbn [then_]. set (n := common_prefix kcmp (t_prefix a) (t_prefix b)).
      pose proof (fun a b e => uchildren_plain _ _ IH true false mat_conv _ NoConverter _ (umat_conv cl C) uno_plain a b e) as CH.
      destruct (n =? length (t_prefix a)), (n =? length (t_prefix b)); cbn [andb].
      - apply then_ext. intros v e1. now rewrite CH.
      - rewrite (umat_plain cx Cx), at_then. apply quiet_ext. intros t' _. rewrite (uclone_plain cl C). cbn [then_]. now rewrite CH.
      - rewrite (umat_plain cl C), at_then. apply quiet_ext. intros t' _. now rewrite CH.
      - rewrite (uclone_plain cl C). cbn [then_]. rewrite (umat_all_plain cl C). unfold ubuilt. rewrite at_then. reflexivity.
    Qed.
  End InnerLeft.

  (** ** Predicates *)
  Section BoolMerge.
    Context {V X : Type} (rec : rtree K V -> rtree K X -> res bool) (rec' : rtree K V -> rtree K X -> E -> given_back E bool).
    Context (REC : forall a b e, rec' a b e = at_ e (rec a b)) (ta : bool).
    Lemma ustep_bind (o : out (bstate (rtree K V) (rtree K X))) (e : E) k k' :
      (forall m, k' (m, e) = ustep (k m) e) -> obind (ustep o e) k' = ustep (obind o k) e.
    Proof using. intros H. destruct o; [apply H|reflexivity..]. Qed.
    Notation O := (op_bool kcmp rec ta). Notation O' := (uop_bool rec' ta).
    Lemma ucoll_bool_plain m (e : E) : ucoll_bool rec' (m, e) = ustep (coll_bool rec m) e.
    Proof using REC.
      unfold ucoll_bool, coll_bool. destruct (bs_a m) as [|x a]; [reflexivity|]. destruct (bs_b m) as [|y b]; [reflexivity|].
      rewrite REC. now destruct (rec x y).
    Qed.
    Lemma ubinary_plain : forall fuel m e an bn, gbinary (uhead_cmp u) O' fuel (m, e) an bn = ustep (binary_merge O fuel m an bn) e.
    Proof using P REC.
      induction fuel as [|fuel IH]; intros m e an bn; [reflexivity|]. cbn [gbinary binary_merge].
      cbn [uop_bool op_bool mo_a mo_b mo_from_a mo_from_b mo_cmp mo_coll fst snd bs_msm adv_a adv_b].
      destruct (an =? 0); [now destruct (bn =? 0)|]. destruct (bn =? 0); [reflexivity|].
      destruct (nth_error (bs_a m) (an / 2)) as [x|]; [|reflexivity].
      rewrite (wbsearch_pure (fun y => option_map CompOpp (head_cmp kcmp x y))) by (intros; now rewrite uhead_cmp_plain).
      destruct (bsearch _ _); try reflexivity; rewrite IH; apply ustep_bind; intros m1;
        rewrite ?ucoll_bool_plain; cbn [fst snd]; apply ustep_bind; intros m2; apply IH.
    Qed.
    Lemma utape_plain : forall fuel m e, gtape (uhead_cmp u) O' fuel (m, e) = ustep (tape_merge O fuel m) e.
    Proof using P REC.
      induction fuel as [|fuel IH]; intros m e; [reflexivity|]. cbn [gtape tape_merge].
      cbn [uop_bool op_bool mo_a mo_b mo_from_a mo_from_b mo_cmp mo_coll fst snd bs_msm adv_a adv_b].
      destruct (bs_a m) as [|x a], (bs_b m) as [|y b]; try reflexivity.
      rewrite uhead_cmp_plain. destruct (head_cmp kcmp x y) as [[]|]; try reflexivity; rewrite ?ucoll_bool_plain; cbn [fst snd];
        apply ustep_bind; intros m2; apply IH.
    Qed.
    Lemma ubool_plain a b e : ubool u strat rec' ta a b e = at_ e (bs_merge strat O a b).
    Proof using P REC.
      unfold ubool, bs_merge, gmerge, merge.
      change (mo_a O' (bs_new a b, e)) with a. change (mo_b O' (bs_new a b, e)) with b.
      change (mo_a O (bs_new a b)) with a. change (mo_b O (bs_new a b)) with b.
      destruct (strat _ _).
      - rewrite utape_plain. now destruct (tape_merge _ _ _).
      - rewrite ubinary_plain. now destruct (binary_merge _ _ _ _ _).
    Qed.
  End BoolMerge.
  Lemma uany_plain {Y} (p : Y -> res bool) (p' : Y -> E -> given_back E bool) : (forall x e, p' x e = at_ e (p x)) ->
    forall l e, uany p' l e = at_ e (any_res p l).
  Proof using.
    intros H. induction l as [|x l IH]; intros e; [reflexivity|]. cbn [uany any_res]. rewrite H.
    destruct (p x) as [[]| |]; [reflexivity|apply IH|reflexivity..].
  Qed.
  Lemma uall_plain {Y} (p : Y -> res bool) (p' : Y -> E -> given_back E bool) : (forall x e, p' x e = at_ e (p x)) ->
    forall l e, uall p' l e = at_ e (all_res p l).
  Proof using.
    intros H. induction l as [|x l IH]; intros e; [reflexivity|]. cbn [uall all_res]. rewrite H.
    destruct (p x) as [[]| |]; [apply IH|reflexivity..].
  Qed.
  Section Preds.
    Context {V X : Type}.
    Lemma uintersects0_plain : forall fuel (l : rtree K V) lp (r : rtree K X) rp e,
      uintersects0 u strat fuel l lp r rp e = at_ e (intersects0 kcmp strat fuel l lp r rp).
    Proof using P.
      induction fuel as [|fuel IH]; intros l lp r rp e; [reflexivity|]. cbn [uintersects0 intersects0].
      rewrite ucommon_plain. cbn [then_]. set (n := common_prefix kcmp lp rp).
      destruct (n =? length lp), (n =? length rp); cbn [andb].
      - destruct (match t_value l with Some _ => _ | None => _ end); [reflexivity|]. apply ubool_plain. intros a b e1. apply IH.
      - apply uany_plain. intros x e1. apply IH.
      - apply uany_plain. intros x e1. apply IH.
      - reflexivity.
    Qed.
    Lemma uis_subset0_plain : forall fuel (l : rtree K V) lp (r : rtree K X) rp e,
      uis_subset0 u strat fuel l lp r rp e = at_ e (is_subset0 kcmp strat fuel l lp r rp).
    Proof using P.
      induction fuel as [|fuel IH]; intros l lp r rp e; [reflexivity|]. cbn [uis_subset0 is_subset0].
      rewrite ucommon_plain. cbn [then_]. set (n := common_prefix kcmp lp rp).
      destruct (n =? length lp), (n =? length rp); cbn [andb].
      - destruct (match t_value l with Some _ => _ | None => _ end); [|reflexivity].
        rewrite (ubool_plain (fun a b => rmap negb (is_subset0 kcmp strat fuel a (t_prefix a) b (t_prefix b)))).
        + now destruct (bs_merge _ _ _ _).
        + intros a b e1. rewrite IH. now destruct (is_subset0 _ _ _ _ _ _ _).
      - destruct (t_value l); [reflexivity|]. apply uall_plain. intros x e1. apply IH.
      - apply uany_plain. intros x e1. apply IH.
      - reflexivity.
    Qed.
  End Preds.
End Plain.

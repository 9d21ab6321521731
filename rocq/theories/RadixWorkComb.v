(** Facts about RadixWorkModel.v: the counted combinations compute what the uncounted ones compute, and bounds on
    what they spend. *)
From Verif Require Import RadixWorkModel RadixWorkFacts RadixModel RadixCostModel OracleModel RadixSpec RadixFacts RadixEffSpec RadixEffFacts
  PropRadixCost.
From Coq Require Import Lia.

Lemma tb_er {X Y} (x : tally X) x' (f : X -> tally Y) g :
  fst x = x' -> (forall a, fst (f a) = g a) -> fst (tbind x f) = rbind x' g.
Proof. intros <-. apply fst_tbind. Qed.

Section Erase.
  Context {K : Type} (kcmp : K -> K -> comparison) (strat : nat -> nat -> bool).
  Lemma cpc_fst a b : fst (common_prefix_count kcmp a b) = common_prefix kcmp a b.
  Proof. apply cpc_spec. Qed.
  Lemma un_er {V} w (r : tally (rtree K V)) r' : fst r = r' ->
    fst (spend w (tmap t_unsplit r)) = rbind r' (fun t => Ok (t_unsplit t)).
  Proof. intros <-. unfold spend, tmap. cbn [fst]. now destruct (fst r). Qed.
  Ltac er IH :=
    repeat first
      [ reflexivity
      | rewrite fst_spend
      | apply tb_er; [|intros ?]
      | apply kchildren_with_er; exact IH
      | apply kchildren_pure_er; exact IH
      | match goal with |- fst (if ?c then _ else _) = _ => destruct c end ].
  Ltac er_start IH a b :=
    pose proof (cpc_fst (t_prefix a) (t_prefix b)) as CP;
    destruct (common_prefix_count kcmp (t_prefix a) (t_prefix b)) as [n c]; cbn [fst] in CP; rewrite <- CP; clear CP;
    cbv zeta; apply un_er; er IH.
  Lemma outer_with_er {V} (f : V -> V -> V * bool) fuel : forall a b, fst (kouter_with kcmp strat f fuel a b) = outer_with kcmp strat f fuel a b.
  Proof. induction fuel as [|fuel IH]; intros a b; cbn [kouter_with outer_with]; [reflexivity|]. er_start IH a b. Qed.
  Lemma inner_with_er {V W} (f : V -> W -> V * bool) fuel : forall a b, fst (kinner_with kcmp strat f fuel a b) = inner_with kcmp strat f fuel a b.
  Proof. induction fuel as [|fuel IH]; intros a b; cbn [kinner_with inner_with]; [reflexivity|]. er_start IH a b. Qed.
  Lemma left_with_er {V W} (f : V -> W -> V * bool) fuel : forall a b, fst (kleft_with kcmp strat f fuel a b) = left_with kcmp strat f fuel a b.
  Proof. induction fuel as [|fuel IH]; intros a b; cbn [kleft_with left_with]; [reflexivity|]. er_start IH a b. Qed.
  Lemma remove_with_er {V W} (f : W -> bool) fuel : forall (a : rtree K V) b, fst (kremove_with kcmp strat f fuel a b) = remove_with kcmp strat f fuel a b.
  Proof. induction fuel as [|fuel IH]; intros a b; cbn [kremove_with remove_with]; [reflexivity|]. er_start IH a b. Qed.
  Lemma retain_with_er {V W} (f : W -> bool) fuel : forall (a : rtree K V) b, fst (kretain_with kcmp strat f fuel a b) = retain_with kcmp strat f fuel a b.
  Proof. induction fuel as [|fuel IH]; intros a b; cbn [kretain_with retain_with]; [reflexivity|]. er_start IH a b. Qed.
  Lemma outer_pure_er {V} (f : V -> V -> option V) fuel : forall a b, fst (kouter_pure kcmp strat f fuel a b) = outer_pure kcmp strat f fuel a b.
  Proof. induction fuel as [|fuel IH]; intros a b; cbn [kouter_pure outer_pure]; [reflexivity|]. er_start IH a b. Qed.
  Lemma inner_pure_er {V W} (f : V -> W -> option V) fuel : forall a b, fst (kinner_pure kcmp strat f fuel a b) = inner_pure kcmp strat f fuel a b.
  Proof. induction fuel as [|fuel IH]; intros a b; cbn [kinner_pure inner_pure]; [reflexivity|]. er_start IH a b. Qed.
  Lemma left_pure_er {V W} (f : V -> option W -> option V) fuel : forall a b, fst (kleft_pure kcmp strat f fuel a b) = left_pure kcmp strat f fuel a b.
  Proof. induction fuel as [|fuel IH]; intros a b; cbn [kleft_pure left_pure]; [reflexivity|]. er_start IH a b. Qed.
  Lemma kany_er {X} (p : X -> tally bool) q l : (forall x, fst (p x) = q x) -> fst (kany p l) = any_res q l.
  Proof.
    intros H. induction l as [|x l IH]; [reflexivity|]. cbn [kany any_res]. apply tb_er; [apply H|]. intros [|]; [reflexivity|exact IH].
  Qed.
  Lemma kall_er {X} (p : X -> tally bool) q l : (forall x, fst (p x) = q x) -> fst (kall p l) = all_res q l.
  Proof.
    intros H. induction l as [|x l IH]; [reflexivity|]. cbn [kall all_res]. apply tb_er; [apply H|]. intros [|]; [exact IH|reflexivity].
  Qed.
  Lemma intersects_er {V W} fuel : forall (l : rtree K V) lp (r : rtree K W) rp,
    fst (kintersects0 kcmp strat fuel l lp r rp) = intersects0 kcmp strat fuel l lp r rp.
  Proof.
    induction fuel as [|fuel IH]; intros l lp r rp; cbn [kintersects0 intersects0]; [reflexivity|].
    pose proof (cpc_fst lp rp) as CP. destruct (common_prefix_count kcmp lp rp) as [n c]. cbn [fst] in CP. rewrite <- CP. clear CP.
    rewrite fst_spend. destruct (_ && _).
    - destruct (match t_value l with Some _ => _ | None => _ end); [reflexivity|].
      apply kbs_merge_er. intros x y. apply IH.
    - destruct (n =? length lp); [apply kany_er; intros x; apply IH|].
      destruct (n =? length rp); [apply kany_er; intros x; apply IH|]. reflexivity.
  Qed.
  Lemma is_subset_er {V W} fuel : forall (l : rtree K V) lp (r : rtree K W) rp,
    fst (kis_subset0 kcmp strat fuel l lp r rp) = is_subset0 kcmp strat fuel l lp r rp.
  Proof.
    induction fuel as [|fuel IH]; intros l lp r rp; cbn [kis_subset0 is_subset0]; [reflexivity|].
    pose proof (cpc_fst lp rp) as CP. destruct (common_prefix_count kcmp lp rp) as [n c]. cbn [fst] in CP. rewrite <- CP. clear CP.
    rewrite fst_spend. destruct (_ && _).
    - destruct (match t_value l with Some _ => _ | None => _ end); [|reflexivity].
      unfold tmap at 1. cbn [fst]. f_equal. apply kbs_merge_er. intros x y. unfold tmap. cbn [fst]. f_equal. apply IH.
    - destruct (n =? length lp). { destruct (t_value l); [reflexivity|]. apply kall_er; intros x; apply IH. }
      destruct (n =? length rp); [apply kany_er; intros x; apply IH|]. reflexivity.
  Qed.
End Erase.

(** ** What a tree weighs *)
Section Weigh.
  Context {K V : Type}.
  Notation tree := (rtree K V).
  (** key components stored *)
  Fixpoint comps (t : tree) : nat := let 'Node p _ c := t in length p + list_sum (map comps c).
  (** the bound for comparisons *)
  Definition psi (t : tree) : nat := comps t + 7 * (t_size t - 1) + 1.
  (** for every value [e] plus the length of its key *)
  Fixpoint lam (e : nat) (t : tree) : nat :=
    let 'Node p v c := t in (match v with Some _ => e + length p | None => 0 end) + list_sum (map (lam (e + length p)) c).

  Lemma size_pos (t : tree) : 1 <= t_size t.
  Proof. destruct t; cbn [t_size]. lia. Qed.
  Lemma psi_node p v (c : list tree) : psi (Node p v c) = length p + 1 + 6 * length c + total psi c.
  Proof.
    unfold psi. cbn [comps t_size]. rewrite Nat.sub_succ, Nat.sub_0_r. fold (total comps c). fold (total (@t_size K V) c).
    assert (E : total psi c + 6 * length c = total comps c + 7 * total (@t_size K V) c).
    { induction c as [|x c IH]; [reflexivity|]. rewrite !total_cons. cbn [length]. unfold psi at 1. pose proof (size_pos x). lia. }
    unfold psi in E. lia.
  Qed.
  Lemma psi_parts (t : tree) : psi t = length (t_prefix t) + 1 + 6 * length (t_children t) + total psi (t_children t).
  Proof. destruct t. apply psi_node. Qed.
  Lemma lam_node e p v (c : list tree) :
    lam e (Node p v c) = (match v with Some _ => e + length p | None => 0 end) + total (lam (e + length p)) c.
  Proof. reflexivity. Qed.
  Lemma vals_node p v (c : list tree) : t_vals (Node p v c) = cloned v + vals c.
  Proof. reflexivity. Qed.
  Lemma lam_shift n (t : tree) : forall e, lam (e + n) t = lam e t + n * t_vals t.
  Proof.
    induction t as [p v c IH] using rtree_ind'. intros e. rewrite !lam_node, vals_node.
    assert (E : total (lam (e + n + length p)) c = total (lam (e + length p)) c + n * vals c).
    { unfold vals. fold (total (@t_vals K V) c). induction c as [|x c IHc]; [cbn; lia|].
      inversion IH as [|? ? H1 H2]; subst. specialize (IHc H2). rewrite !total_cons, Nat.mul_add_distr_l.
      replace (e + n + length p) with (e + length p + n) in * by lia. rewrite H1. lia. }
    rewrite E. destruct v; cbn [cloned]; lia.
  Qed.
  Lemma lam_mono e e' (t : tree) : e <= e' -> lam e t <= lam e' t.
  Proof. intros H. replace e' with (e + (e' - e)) by lia. rewrite lam_shift. apply Nat.le_add_r. Qed.
  Lemma total_lam_mono e e' (l : list tree) : e <= e' -> total (lam e) l <= total (lam e') l.
  Proof. intros H. apply total_le. intros x _. now apply lam_mono. Qed.
  Lemma lam_short e p v (c : list tree) n : n <= length p ->
    lam e (Node (skipn n p) v c) + n * t_vals (Node p v c) = lam e (Node p v c).
  Proof.
    intros H. change (t_vals (Node p v c)) with (t_vals (Node (skipn n p) v c)). rewrite <- lam_shift, !lam_node, skipn_length.
    replace (e + n + (length p - n)) with (e + length p) by lia. reflexivity.
  Qed.
  Lemma vals_lam (t : tree) e : 1 <= e -> t_vals t <= lam e t.
  Proof. intros H. replace e with (e - 1 + 1) by lia. rewrite lam_shift. lia. Qed.
  Lemma cloned_lam e p (v : option V) (c : list tree) : 1 <= e -> cloned v + total (lam (e + length p)) c <= lam e (Node p v c).
  Proof. intros H. rewrite lam_node. destruct v; cbn [cloned]; lia. Qed.
  Lemma lam_listing e (t : tree) : lam e t = total (fun kv => e + length (fst kv)) (listing t).
  Proof.
    revert e. induction t as [p v c IH] using rtree_ind'. intros e. rewrite lam_node. cbn [listing].
    assert (M : forall (l : list (list K * V)) e, total (fun kv => e + length (fst kv)) (map (under p) l)
      = total (fun kv => (e + length p) + length (fst kv)) l).
    { induction l as [|x l IHl]; intros e'; [reflexivity|]. cbn [map]. rewrite !total_cons, IHl. unfold under at 1. cbn [fst].
      rewrite app_length. lia. }
    rewrite M. clear M.
    assert (E : total (lam (e + length p)) c = total (fun kv => e + length p + length (fst kv)) (flat_map listing c)).
    { induction c as [|x c IHc]; [reflexivity|]. inversion IH as [|? ? H1 H2]; subst. rewrite total_cons, IHc by assumption.
      cbn [flat_map]. unfold total at 2. rewrite map_app, list_sum_app. fold (total (fun kv : list K * V => e + length p + length (fst kv)) (listing x)).
      rewrite <- H1. reflexivity. }
    rewrite E. unfold total. rewrite map_app, list_sum_app. destruct v; cbn; lia.
  Qed.
  Lemma mat_short_inv (t : tree) : forall n t', mat_short t n = Ok t' ->
    n < length (t_prefix t) /\ t' = Node (skipn n (t_prefix t)) (t_value t) (t_children t).
  Proof.
    induction t as [p v cs IH] using rtree_ind'. intros n t'. cbn [mat_short t_prefix t_value t_children].
    destruct (Nat.ltb_spec n (length p)) as [L|]; [|discriminate].
    set (go := (fix go (l : list tree) : res (list tree) :=
                  match l with
                  | [] => Ok []
                  | x :: l' => rbind (mat_short x 0) (fun x' => rbind (go l') (fun l'' => Ok (x' :: l'')))
                  end)).
    assert (G : forall r, go cs = Ok r -> r = cs).
    { clear L. induction cs as [|x cs IHc]; intros r; cbn [go]; [now intros [= <-]|].
      inversion IH as [|? ? H1 H2]; subst. destruct (mat_short x 0) as [x'| |] eqn:E; try discriminate. cbn [rbind].
      fold go. destruct (go cs) as [l| |] eqn:E2; try discriminate. cbn [rbind]. intros [= <-].
      apply H1 in E as [_ ->]. rewrite (IHc H2 l eq_refl). now destruct x. }
    destruct (go cs) as [r| |] eqn:E; try discriminate. cbn [rbind]. intros [= <-]. now rewrite (G r eq_refl).
  Qed.
  Lemma split_inv (t : tree) n t' : t_split t n = Ok t' -> n < length (t_prefix t) /\
    t' = Node (firstn n (t_prefix t)) None [Node (skipn n (t_prefix t)) (t_value t) (t_children t)].
  Proof. destruct t as [p v c]. cbn [t_split t_prefix t_value t_children]. destruct (Nat.ltb_spec n (length p)); [now intros [= <-]|discriminate]. Qed.
  Lemma psi_short (t : tree) n : n <= length (t_prefix t) ->
    psi (Node (skipn n (t_prefix t)) (t_value t) (t_children t)) + n = psi t.
  Proof. intros H. rewrite psi_node, psi_parts, skipn_length. lia. Qed.
End Weigh.

Lemma cpc_bounds {K} (kcmp : K -> K -> comparison) a b n c : common_prefix_count kcmp a b = (n, c) ->
  n <= length a /\ n <= length b /\ c <= n + 1 /\ (n = length a \/ n = length b -> c = n).
Proof.
  revert b n c. induction a as [|x a IH]; intros [|y b] n c; cbn [common_prefix_count length]; try (intros [= <- <-]; lia).
  destruct (keqb kcmp x y); [|intros [= <- <-]; lia].
  destruct (common_prefix_count kcmp a b) as [n' c'] eqn:E. intros [= <- <-]. apply IH in E. lia.
Qed.

Lemma mcmp_le an bn : mcmp an bn <= 6 * an + bn.
Proof. unfold mcmp. destruct (_ || _); lia. Qed.
Lemma mcmp_1 bn : mcmp 1 bn <= 7 * bn.
Proof. unfold mcmp. destruct bn; cbn [Nat.eqb orb]; lia. Qed.

(** ** Comparisons *)
Section Cmp.
  Context {K : Type} (kcmp : K -> K -> comparison) (strat : nat -> nat -> bool).
  Notation cost x := (w_cmp (snd x)).

  Lemma un_cost {V} w (r : tally (rtree K V)) B : w_cmp w + cost r <= B -> cost (spend w (tmap t_unsplit r)) <= B.
  Proof. intros H. exact H. Qed.
  Lemma bind_cost {X Y} (x : tally X) (f : X -> tally Y) a b :
    cost x <= a -> (forall r, fst x = Ok r -> cost (f r) <= b) -> cost (tbind x f) <= a + b.
  Proof. apply (gg_bind g_cmp). Qed.

  Section With.
    Context {V W : Type} (rec : rtree K V -> rtree K W -> tally (rtree K V)) (ta tb cb : bool) (conv : rtree K W -> option (rtree K V)).
    Context (R : forall x y, cost (rec x y) <= psi x + psi y).
    Lemma kids_with a b : cost (kchildren_with kcmp strat rec ta tb cb conv a b) <= mcmp (length a) (length b) + total psi a + total psi b.
    Proof.
      destruct (kchildren_with_gg kcmp strat g_cmp rec conv ta tb cb (fun _ => True) (fun _ => True) psi psi a b) as (n & H1 & _ & H2).
      - intros x y _ _. apply R.
      - intros _ y _. cbn. lia.
      - now apply Forall_forall.
      - now apply Forall_forall.
      - cbn [g_cmp gg w_cmp] in H2. lia.
    Qed.
    Lemma same_with (g : list (rtree K V) -> rtree K V) a b n : n = length (t_prefix a) ->
      n + cost (tbind (kchildren_with kcmp strat rec ta tb cb conv (t_children a) (t_children b)) (fun c => tret (g c))) <= psi a + psi b.
    Proof.
      intros ->. pose proof (bind_cost (kchildren_with kcmp strat rec ta tb cb conv (t_children a) (t_children b)) (fun c => tret (g c)) _ 0
        (kids_with _ _) (fun _ _ => le_n 0)) as H.
      rewrite !psi_parts. pose proof (mcmp_le (length (t_children a)) (length (t_children b))). lia.
    Qed.
    Lemma down_with (g : list (rtree K V) -> rtree K V) a b n : n = length (t_prefix a) ->
      n + cost (tbind (kmat_short b n) (fun that => tbind (kchildren_with kcmp strat rec ta tb cb conv (t_children a) [that]) (fun c => tret (g c))))
        <= psi a + psi b.
    Proof.
      intros ->. unfold tbind at 1. unfold kmat_short at 1. cbn [fst].
      destruct (mat_short b (length (t_prefix a))) as [r| |] eqn:E; cbn [snd kmat_short w_cmp wadd];
        [|rewrite (psi_parts a); lia..].
      apply mat_short_inv in E as [L ->].
      pose proof (bind_cost (kchildren_with kcmp strat rec ta tb cb conv (t_children a) [Node (skipn (length (t_prefix a)) (t_prefix b)) (t_value b) (t_children b)])
          (fun c => tret (g c)) _ 0 (kids_with _ _) (fun _ _ => le_n 0)) as H.
      rewrite total_cons in H. change (total psi (@nil (rtree K W))) with 0 in H.
      pose proof (psi_short b (length (t_prefix a)) ltac:(lia)). pose proof (mcmp_le (length (t_children a)) 1).
      cbn [length] in H. rewrite (psi_parts a). lia.
    Qed.
    Lemma up_with (g : rtree K V -> list (rtree K V) -> rtree K V) a b n : n = length (t_prefix b) ->
      n + cost (tbind (t_split a n, wk0) (fun self => tbind (kchildren_with kcmp strat rec ta tb cb conv (t_children self) (t_children b)) (fun c => tret (g self c))))
        <= psi a + psi b.
    Proof.
      intros ->. unfold tbind at 1. cbn [fst].
      destruct (t_split a (length (t_prefix b))) as [r| |] eqn:E; cbn [snd w_cmp wadd wk0];
        [|rewrite (psi_parts b); lia..].
      apply split_inv in E as [L ->]. cbn [t_children].
      pose proof (bind_cost (kchildren_with kcmp strat rec ta tb cb conv [Node (skipn (length (t_prefix b)) (t_prefix a)) (t_value a) (t_children a)] (t_children b))
          (fun c => tret (g (Node (firstn (length (t_prefix b)) (t_prefix a)) None [Node (skipn (length (t_prefix b)) (t_prefix a)) (t_value a) (t_children a)]) c))
          _ 0 (kids_with _ _) (fun _ _ => le_n 0)) as H.
      rewrite total_cons in H. change (total psi (@nil (rtree K V))) with 0 in H.
      pose proof (psi_short a (length (t_prefix b)) ltac:(lia)). pose proof (mcmp_1 (length (t_children b))) as M.
      cbn [length] in H. rewrite (psi_parts b). unfold mcmp in *. destruct (t_children b); cbn [length Nat.eqb orb] in *; lia.
    Qed.
  End With.

  Lemma psi_pos {V} (t : rtree K V) : length (t_prefix t) + 1 <= psi t.
  Proof. rewrite psi_parts. lia. Qed.
  Lemma tret_cost {X} (x : X) : cost (tret x) = 0.
  Proof. reflexivity. Qed.

  Ltac start a b n c E :=
    destruct (common_prefix_count kcmp (t_prefix a) (t_prefix b)) as [n c] eqn:E; apply cpc_bounds in E as (L1 & L2 & L3 & L4);
    cbv zeta; apply un_cost; cbn [w_cmp]; pose proof (psi_pos a); pose proof (psi_pos b);
    destruct (Nat.eqb_spec n (length (t_prefix a))) as [E1|N1]; destruct (Nat.eqb_spec n (length (t_prefix b))) as [E2|N2]; cbn [andb];
    try (rewrite (L4 (or_introl E1)) in * || rewrite (L4 (or_intror E2)) in *).
  Ltac fin IH :=
    repeat match goal with |- context [spend (Work 0 ?k) ?x] => change (w_cmp (snd (spend (Work 0 k) x))) with (w_cmp (snd x)) end;
    repeat match goal with |- context [if ?c then _ else _] => destruct c end;
    first [ rewrite tret_cost; lia
          | apply same_with; assumption
          | apply down_with; assumption
          | apply up_with; assumption ].
  Lemma sort_cost {V} (a b : rtree K V) n : n < length (t_prefix a) -> n < length (t_prefix b) -> forall c, c <= n + 1 ->
    c + cost (tbind (t_split a n, wk0) (fun self => tbind (kmat_short b n) (fun that =>
              tbind (ksort_heads kcmp (t_children self ++ [that])) (fun c => tret (Node (t_prefix self) (t_value self) c))))) <= psi a + psi b.
  Proof.
    intros H1 H2 c H3. pose proof (psi_pos a). pose proof (psi_pos b). unfold tbind, kmat_short, ksort_heads. cbn [fst snd].
    destruct (t_split a n); cbn [fst snd]; [|cbn; lia..]. destruct (mat_short b n); cbn [fst snd]; [|cbn; lia..].
    destruct (sort_heads _ _); cbn [fst snd tret w_cmp wadd wk0]; lia.
  Qed.
  Lemma outer_with_cost {V} (f : V -> V -> V * bool) fuel : forall a b, cost (kouter_with kcmp strat f fuel a b) <= psi a + psi b.
  Proof.
    induction fuel as [|fuel IH]; intros a b; cbn [kouter_with]; [cbn; lia|]. start a b n c E.
    - fin IH.
    - fin IH.
    - etransitivity; [|apply (up_with (kouter_with kcmp strat f fuel) true true true mat_conv IH
        (fun self c => Node (t_prefix self) (upd_outer f (t_value self) (t_value b)) c) a b n E2)].
      apply Nat.add_le_mono_l. unfold tbind at 1 3. cbn [fst].
      destruct (t_split a n); cbn [snd w_cmp wadd]; [|lia..]. rewrite (gg_spend g_cmp). cbn [g_cmp gg w_cmp]. lia.
    - apply sort_cost; lia.
  Qed.
  Lemma inner_with_cost {V W} (f : V -> W -> V * bool) fuel : forall a b, cost (kinner_with kcmp strat f fuel a b) <= psi a + psi b.
  Proof. induction fuel as [|fuel IH]; intros a b; cbn [kinner_with]; [cbn; lia|]. start a b n c E; fin IH. Qed.
  Lemma left_with_cost {V W} (f : V -> W -> V * bool) fuel : forall a b, cost (kleft_with kcmp strat f fuel a b) <= psi a + psi b.
  Proof. induction fuel as [|fuel IH]; intros a b; cbn [kleft_with]; [cbn; lia|]. start a b n c E; fin IH. Qed.
  Lemma remove_with_cost {V W} (f : W -> bool) fuel : forall (a : rtree K V) b, cost (kremove_with kcmp strat f fuel a b) <= psi a + psi b.
  Proof. induction fuel as [|fuel IH]; intros a b; cbn [kremove_with]; [cbn; lia|]. start a b n c E; fin IH. Qed.
  Lemma retain_with_cost {V W} (f : W -> bool) fuel : forall (a : rtree K V) b, cost (kretain_with kcmp strat f fuel a b) <= psi a + psi b.
  Proof. induction fuel as [|fuel IH]; intros a b; cbn [kretain_with]; [cbn; lia|]. start a b n c E; fin IH. Qed.

  Section Pure.
    Context {V W : Type} (rec : rtree K V -> rtree K W -> tally (rtree K V)) (ta tb cca ccb : bool)
      (ca : rtree K V -> option (rtree K V)) (cb : rtree K W -> option (rtree K V)).
    Context (R : forall x y, cost (rec x y) <= psi x + psi y).
    Notation kids := (kchildren_pure kcmp strat rec ta tb cca ccb ca cb).
    Lemma kids_pure a b : cost (kids a b) <= mcmp (length a) (length b) + total psi a + total psi b.
    Proof.
      destruct (kchildren_pure_gg kcmp strat g_cmp rec ca cb ta tb cca ccb (fun _ => True) (fun _ => True) psi psi a b) as (n & H1 & H2).
      - intros x y _ _. apply R.
      - intros _ y _. cbn. lia.
      - intros _ y _. cbn. lia.
      - now apply Forall_forall.
      - now apply Forall_forall.
      - cbn [g_cmp gg w_cmp] in H2. lia.
    Qed.
    Lemma same_pure (g : list (rtree K V) -> rtree K V) a b n : n = length (t_prefix a) ->
      n + cost (tbind (kids (t_children a) (t_children b)) (fun c => tret (g c))) <= psi a + psi b.
    Proof.
      intros ->. pose proof (bind_cost (kids (t_children a) (t_children b)) (fun c => tret (g c)) _ 0 (kids_pure _ _) (fun _ _ => le_n 0)) as H.
      rewrite !psi_parts. pose proof (mcmp_le (length (t_children a)) (length (t_children b))). lia.
    Qed.
    Lemma down_pure (g : list (rtree K V) -> rtree K V) k a b n : n = length (t_prefix a) ->
      n + cost (tbind (kmat_short b n) (fun b => spend (Work 0 k) (tbind (kids (t_children a) [b]) (fun c => tret (g c))))) <= psi a + psi b.
    Proof.
      intros ->. unfold tbind at 1. unfold kmat_short at 1. cbn [fst].
      destruct (mat_short b (length (t_prefix a))) as [r| |] eqn:E; cbn [snd kmat_short w_cmp wadd];
        [|rewrite (psi_parts a); lia..].
      apply mat_short_inv in E as [L ->]. rewrite (gg_spend g_cmp). cbn [g_cmp gg w_cmp].
      pose proof (bind_cost (kids (t_children a) [Node (skipn (length (t_prefix a)) (t_prefix b)) (t_value b) (t_children b)])
          (fun c => tret (g c)) _ 0 (kids_pure _ _) (fun _ _ => le_n 0)) as H.
      rewrite total_cons in H. change (total psi (@nil (rtree K W))) with 0 in H.
      pose proof (psi_short b (length (t_prefix a)) ltac:(lia)). pose proof (mcmp_le (length (t_children a)) 1).
      cbn [length] in H. rewrite (psi_parts a). lia.
    Qed.
    Lemma up_pure (g : list (rtree K V) -> rtree K V) k a b n : n = length (t_prefix b) ->
      n + cost (tbind (kmat_short a n) (fun a => spend (Work 0 k) (tbind (kids [a] (t_children b)) (fun c => tret (g c))))) <= psi a + psi b.
    Proof.
      intros ->. unfold tbind at 1. unfold kmat_short at 1. cbn [fst].
      destruct (mat_short a (length (t_prefix b))) as [r| |] eqn:E; cbn [snd kmat_short w_cmp wadd];
        [|rewrite (psi_parts b); lia..].
      apply mat_short_inv in E as [L ->]. rewrite (gg_spend g_cmp). cbn [g_cmp gg w_cmp].
      pose proof (bind_cost (kids [Node (skipn (length (t_prefix b)) (t_prefix a)) (t_value a) (t_children a)] (t_children b))
          (fun c => tret (g c)) _ 0 (kids_pure _ _) (fun _ _ => le_n 0)) as H.
      rewrite total_cons in H. change (total psi (@nil (rtree K V))) with 0 in H.
      pose proof (psi_short a (length (t_prefix b)) ltac:(lia)). pose proof (mcmp_1 (length (t_children b))) as M.
      cbn [length] in H. rewrite (psi_parts b). unfold mcmp in *. destruct (t_children b); cbn [length Nat.eqb orb] in *; lia.
    Qed.
  End Pure.
  Lemma spend0 {X} (x : tally X) : spend (Work 0 0) x = x.
  Proof. destruct x as [r [a b]]. reflexivity. Qed.
  Lemma down_pure0 {V W} rec ta tb cca ccb ca cb (R : forall (x : rtree K V) (y : rtree K W), cost (rec x y) <= psi x + psi y) (g : list (rtree K V) -> rtree K V) a b n : n = length (t_prefix a) ->
      n + cost (tbind (kmat_short b n) (fun b => (tbind (kchildren_pure kcmp strat rec ta tb cca ccb ca cb (t_children a) [b]) (fun c => tret (g c))))) <= psi a + psi b.
  Proof.
    intros H. etransitivity; [|apply (down_pure rec ta tb cca ccb ca cb R g 0 a b n H)]. apply Nat.add_le_mono_l.
    unfold tbind at 1 3. destruct (fst (kmat_short b n)); cbn [snd]; [now rewrite spend0|reflexivity..].
  Qed.
  Lemma up_pure0 {V W} rec ta tb cca ccb ca cb (R : forall (x : rtree K V) (y : rtree K W), cost (rec x y) <= psi x + psi y) (g : list (rtree K V) -> rtree K V) a b n : n = length (t_prefix b) ->
      n + cost (tbind (kmat_short a n) (fun a => (tbind (kchildren_pure kcmp strat rec ta tb cca ccb ca cb [a] (t_children b)) (fun c => tret (g c))))) <= psi a + psi b.
  Proof.
    intros H. etransitivity; [|apply (up_pure rec ta tb cca ccb ca cb R g 0 a b n H)]. apply Nat.add_le_mono_l.
    unfold tbind at 1 3. destruct (fst (kmat_short a n)); cbn [snd]; [now rewrite spend0|reflexivity..].
  Qed.
  Lemma sort2_cost {V} (a b : rtree K V) p n : n < length (t_prefix a) -> n < length (t_prefix b) -> forall c, c <= n + 1 ->
    c + cost (tbind (kmat_short a n) (fun a => tbind (kmat_short b n) (fun b =>
              tbind (ksort_heads kcmp [a; b]) (fun c => tret (Node p None c))))) <= psi a + psi b.
  Proof.
    intros H1 H2 c H3. pose proof (psi_pos a). pose proof (psi_pos b). unfold tbind, kmat_short, ksort_heads. cbn [fst snd].
    destruct (mat_short a n); cbn [fst snd]; [|cbn; lia..]. destruct (mat_short b n); cbn [fst snd]; [|cbn; lia..].
    destruct (sort_heads _ _); cbn [fst snd tret w_cmp wadd wk0]; lia.
  Qed.
  Ltac finp IH :=
    first [ rewrite tret_cost; lia
          | apply same_pure; assumption
          | apply down_pure; assumption
          | apply up_pure; assumption
          | apply down_pure0; assumption
          | apply up_pure0; assumption ].
  Lemma outer_pure_cost {V} (f : V -> V -> option V) fuel : forall a b, cost (kouter_pure kcmp strat f fuel a b) <= psi a + psi b.
  Proof.
    induction fuel as [|fuel IH]; intros a b; cbn [kouter_pure]; [cbn; lia|]. start a b n c E.
    - rewrite (gg_spend g_cmp). cbn [g_cmp gg w_cmp Nat.add]. finp IH.
    - finp IH.
    - finp IH.
    - apply sort2_cost; lia.
  Qed.
  Lemma inner_pure_cost {V W} (f : V -> W -> option V) fuel : forall a b, cost (kinner_pure kcmp strat f fuel a b) <= psi a + psi b.
  Proof. induction fuel as [|fuel IH]; intros a b; cbn [kinner_pure]; [cbn; lia|]. start a b n c E; finp IH. Qed.
  Lemma left_pure_cost {V W} (f : V -> option W -> option V) fuel : forall a b, cost (kleft_pure kcmp strat f fuel a b) <= psi a + psi b.
  Proof.
    induction fuel as [|fuel IH]; intros a b; cbn [kleft_pure]; [cbn; lia|]. start a b n c E; try finp IH.
    rewrite (gg_spend g_cmp). cbn [g_cmp gg w_cmp Nat.add]. unfold tbind, kmat_all. cbn [fst].
    destruct (mat_all (t_children a)); cbn [snd w_cmp wadd tret wk0]; lia.
  Qed.

  (** *** predicates *)
  (** the weight of a tree that goes on with the key [p] *)
  Definition psip {V} (t : rtree K V) (p : list K) : nat := length p + 1 + 6 * length (t_children t) + total psi (t_children t).
  Lemma psip_prefix {V} (t : rtree K V) : psip t (t_prefix t) = psi t.
  Proof. symmetry. apply psi_parts. Qed.
  Lemma kany_cost {X} (p : X -> tally bool) h l : (forall x, In x l -> cost (p x) <= h x) -> cost (kany p l) <= total h l.
  Proof.
    induction l as [|x l IH]; intros H; cbn [kany]; [cbn; lia|]. rewrite total_cons. apply bind_cost; [apply H; now left|].
    intros [|] _; [cbn; lia|]. apply IH. intros y I. apply H. now right.
  Qed.
  Lemma kall_cost {X} (p : X -> tally bool) h l : (forall x, In x l -> cost (p x) <= h x) -> cost (kall p l) <= total h l.
  Proof.
    induction l as [|x l IH]; intros H; cbn [kall]; [cbn; lia|]. rewrite total_cons. apply bind_cost; [apply H; now left|].
    intros [|] _; [|cbn; lia]. apply IH. intros y I. apply H. now right.
  Qed.
  Lemma kids_bool {V W} rec ta (Pa : rtree K V -> Prop) (Pb : rtree K W -> Prop) a b :
    (forall x y, Pa x -> Pb y -> cost (rec x y) <= psi x + psi y) -> Forall Pa a -> Forall Pb b ->
    cost (kbs_merge kcmp strat rec ta a b) <= mcmp (length a) (length b) + total psi a + total psi b.
  Proof.
    intros R HA HB. destruct (kbs_merge_gg kcmp strat g_cmp rec ta Pa Pb psi psi a b R HA HB) as (n & H1 & H2).
    cbn [g_cmp gg w_cmp] in H2. lia.
  Qed.

  Context (L : OrdLaws kcmp).
  Definition opens {V} (y : K) (t : rtree K V) : bool := match t_prefix t with x :: _ => keqb kcmp x y | [] => false end.
  Lemma one_opens {V} y B (cs : list (rtree K V)) : StronglySorted (head_lt kcmp) cs ->
    total (fun c => if opens y c then B else 0) cs <= B.
  Proof using L.
    induction 1 as [|c cs S IH H]; [cbn; lia|]. rewrite total_cons. destruct (opens y c) eqn:Q; [|lia].
    enough (Z : total (fun c => if opens y c then B else 0) cs <= total (fun _ => 0) cs) by (rewrite total_scale in Z; lia).
    apply total_le. intros d I. rewrite Forall_forall in H. specialize (H d I).
    destruct (opens y d) eqn:Q2; [|lia]. exfalso. unfold head_lt in H. unfold opens, keqb in Q, Q2.
    destruct (t_prefix c) as [|x ?]; [discriminate|]. destruct (t_prefix d) as [|z ?]; [discriminate|].
    destruct (kcmp x y) eqn:E1; try discriminate. destruct (kcmp z y) eqn:E2; try discriminate.
    rewrite (cmp_eq_l L _ _ z E1) in H. apply (cmp_sym L) in E2. congruence.
  Qed.
  Lemma wf_kids {V} (t : rtree K V) : WO kcmp t ->
    Forall (fun c => t_prefix c <> [] /\ WO kcmp c) (t_children t) /\ StronglySorted (head_lt kcmp) (t_children t).
  Proof using.
    intros H. apply wf_wfc in H. split.
    - apply Forall_forall. intros c I. destruct (wfc_In _ _ _ H I) as (H1 & H2 & _). auto.
    - now destruct H.
  Qed.
  (** two keys that part at once *)
  Lemma cpc_part x a y b : keqb kcmp x y = false -> common_prefix_count kcmp (x :: a) (y :: b) = (0, 1).
  Proof using. intros H. cbn [common_prefix_count]. now rewrite H. Qed.
  Lemma any_side {V} (p : rtree K V -> tally bool) (y : K) B (cs : list (rtree K V)) :
    Forall (fun c => t_prefix c <> [] /\ WO kcmp c) cs -> StronglySorted (head_lt kcmp) cs ->
    (forall c, In c cs -> opens y c = true -> cost (p c) <= psi c + B) ->
    (forall c, In c cs -> opens y c = false -> cost (p c) <= 1) ->
    cost (kany p cs) <= total psi cs + B /\ cost (kall p cs) <= total psi cs + B.
  Proof using L.
    intros H S H1 H2.
    assert (Z : forall c, In c cs -> cost (p c) <= psi c + (if opens y c then B else 0)).
    { intros c I. pose proof (psi_pos c). destruct (opens y c) eqn:Q; [now apply H1|]. specialize (H2 c I Q). lia. }
    pose proof (one_opens y B cs S) as O1.
    split; (etransitivity; [first [apply kany_cost; exact Z | apply kall_cost; exact Z]|]); rewrite total_add; lia.
  Qed.
  Lemma intersects_cost {V W} fuel : forall (l : rtree K V) lp (r : rtree K W) rp, WO kcmp l -> WO kcmp r ->
    cost (kintersects0 kcmp strat fuel l lp r rp) <= psip l lp + psip r rp.
  Proof using L.
    induction fuel as [|fuel IH]; intros l lp r rp HL HR; cbn [kintersects0]; [cbn; lia|].
    destruct (wf_kids l HL) as [FL SL]. destruct (wf_kids r HR) as [FR SR].
    destruct (common_prefix_count kcmp lp rp) as [n c] eqn:E. pose proof E as E0. apply cpc_bounds in E as (L1 & L2 & L3 & L4).
    rewrite (gg_spend g_cmp). cbn [g_cmp gg w_cmp].
    destruct (Nat.eqb_spec n (length lp)) as [E1|N1]; destruct (Nat.eqb_spec n (length rp)) as [E2|N2]; cbn [andb].
    - destruct (match t_value l with Some _ => _ | None => _ end); [cbn; unfold psip; lia|].
      pose proof (kids_bool (fun a b => kintersects0 kcmp strat fuel a (t_prefix a) b (t_prefix b)) false
        (fun c => t_prefix c <> [] /\ WO kcmp c) (fun c => t_prefix c <> [] /\ WO kcmp c) (t_children l) (t_children r)) as H.
      specialize (H ltac:(intros x y [_ Hx] [_ Hy]; rewrite <- (psip_prefix x), <- (psip_prefix y); now apply IH) FL FR).
      pose proof (mcmp_le (length (t_children l)) (length (t_children r))). unfold psip. lia.
    - specialize (L4 (or_introl E1)). subst c.
      destruct (skipn n rp) as [|y rp'] eqn:Q. { apply (f_equal (@length K)) in Q. rewrite skipn_length in Q. cbn in Q. lia. }
      destruct (any_side (fun lc => kintersects0 kcmp strat fuel lc (t_prefix lc) r (y :: rp')) y (psip r (y :: rp')) (t_children l) FL SL) as [H _].
      + intros d I _. rewrite <- psip_prefix. apply IH; [|assumption]. rewrite Forall_forall in FL. now apply FL.
      + intros d I O1. unfold opens in O1. rewrite Forall_forall in FL. destruct (FL d I) as [NE _].
        destruct (t_prefix d) as [|x p]; [easy|]. destruct fuel as [|fuel]; [cbn; lia|]. cbn [kintersects0].
        rewrite cpc_part by assumption. rewrite (gg_spend g_cmp). cbn. lia.
      + apply (f_equal (@length K)) in Q. rewrite skipn_length in Q. unfold psip in *. lia.
    - specialize (L4 (or_intror E2)). subst c.
      destruct (skipn n lp) as [|y lp'] eqn:Q. { apply (f_equal (@length K)) in Q. rewrite skipn_length in Q. cbn in Q. lia. }
      destruct (any_side (fun rc => kintersects0 kcmp strat fuel l (y :: lp') rc (t_prefix rc)) y (psip l (y :: lp')) (t_children r) FR SR) as [H _].
      + intros d I _. rewrite <- psip_prefix, Nat.add_comm. apply IH; [assumption|]. rewrite Forall_forall in FR. now apply FR.
      + intros d I O1. unfold opens in O1. rewrite Forall_forall in FR. destruct (FR d I) as [NE _].
        destruct (t_prefix d) as [|x p]; [easy|]. destruct fuel as [|fuel]; [cbn; lia|]. cbn [kintersects0].
        rewrite cpc_part. { rewrite (gg_spend g_cmp). cbn. lia. }
        unfold keqb in *. rewrite (ord_opp L). now destruct (kcmp x y).
      + apply (f_equal (@length K)) in Q. rewrite skipn_length in Q. unfold psip in *. lia.
    - cbn. unfold psip. lia.
  Qed.
  Lemma is_subset_cost {V W} fuel : forall (l : rtree K V) lp (r : rtree K W) rp, WO kcmp l -> WO kcmp r ->
    cost (kis_subset0 kcmp strat fuel l lp r rp) <= psip l lp + psip r rp.
  Proof using L.
    induction fuel as [|fuel IH]; intros l lp r rp HL HR; cbn [kis_subset0]; [cbn; lia|].
    destruct (wf_kids l HL) as [FL SL]. destruct (wf_kids r HR) as [FR SR].
    destruct (common_prefix_count kcmp lp rp) as [n c] eqn:E. pose proof E as E0. apply cpc_bounds in E as (L1 & L2 & L3 & L4).
    rewrite (gg_spend g_cmp). cbn [g_cmp gg w_cmp].
    destruct (Nat.eqb_spec n (length lp)) as [E1|N1]; destruct (Nat.eqb_spec n (length rp)) as [E2|N2]; cbn [andb].
    - destruct (match t_value l with Some _ => _ | None => _ end); [|cbn; unfold psip; lia].
      pose proof (kids_bool (fun a b => tmap negb (kis_subset0 kcmp strat fuel a (t_prefix a) b (t_prefix b))) true
        (fun c => t_prefix c <> [] /\ WO kcmp c) (fun c => t_prefix c <> [] /\ WO kcmp c) (t_children l) (t_children r)) as H.
      specialize (H ltac:(intros x y [_ Hx] [_ Hy]; cbn [tmap snd]; rewrite <- (psip_prefix x), <- (psip_prefix y); now apply IH) FL FR).
      pose proof (mcmp_le (length (t_children l)) (length (t_children r))). cbn [tmap snd]. unfold psip. lia.
    - specialize (L4 (or_introl E1)). subst c. destruct (t_value l); [cbn; unfold psip; lia|].
      destruct (skipn n rp) as [|y rp'] eqn:Q. { apply (f_equal (@length K)) in Q. rewrite skipn_length in Q. cbn in Q. lia. }
      destruct (any_side (fun lc => kis_subset0 kcmp strat fuel lc (t_prefix lc) r (y :: rp')) y (psip r (y :: rp')) (t_children l) FL SL) as [_ H].
      + intros d I _. rewrite <- psip_prefix. apply IH; [|assumption]. rewrite Forall_forall in FL. now apply FL.
      + intros d I O1. unfold opens in O1. rewrite Forall_forall in FL. destruct (FL d I) as [NE _].
        destruct (t_prefix d) as [|x p]; [easy|]. destruct fuel as [|fuel]; [cbn; lia|]. cbn [kis_subset0].
        rewrite cpc_part by assumption. rewrite (gg_spend g_cmp). cbn. lia.
      + apply (f_equal (@length K)) in Q. rewrite skipn_length in Q. unfold psip in *. lia.
    - specialize (L4 (or_intror E2)). subst c.
      destruct (skipn n lp) as [|y lp'] eqn:Q. { apply (f_equal (@length K)) in Q. rewrite skipn_length in Q. cbn in Q. lia. }
      destruct (any_side (fun rc => kis_subset0 kcmp strat fuel l (y :: lp') rc (t_prefix rc)) y (psip l (y :: lp')) (t_children r) FR SR) as [H _].
      + intros d I _. rewrite <- psip_prefix, Nat.add_comm. apply IH; [assumption|]. rewrite Forall_forall in FR. now apply FR.
      + intros d I O1. unfold opens in O1. rewrite Forall_forall in FR. destruct (FR d I) as [NE _].
        destruct (t_prefix d) as [|x p]; [easy|]. destruct fuel as [|fuel]; [cbn; lia|]. cbn [kis_subset0].
        rewrite cpc_part. { rewrite (gg_spend g_cmp). cbn. lia. }
        unfold keqb in *. rewrite (ord_opp L). now destruct (kcmp x y).
      + apply (f_equal (@length K)) in Q. rewrite skipn_length in Q. unfold psip in *. lia.
    - cbn. unfold psip. lia.
  Qed.
End Cmp.

(** ** Clones *)
Section Copy.
  Context {K : Type} (kcmp : K -> K -> comparison) (strat : nat -> nat -> bool).
  Notation cost x := (w_copy (snd x)).
  Notation kid := (fun c => t_prefix c <> [] /\ WO kcmp c).
  (** at a root with an empty prefix the other tree may be copied without using up a component of its keys *)
  Definition slack {V} (t : rtree K V) : nat := match t_prefix t with [] => 2 | _ => 1 end.
  Lemma slack_kid {V} (t : rtree K V) : t_prefix t <> [] -> slack t = 1.
  Proof. unfold slack. now destruct (t_prefix t). Qed.
  Lemma slack_1 {V} (t : rtree K V) : 1 <= slack t.
  Proof. unfold slack. destruct (t_prefix t); lia. Qed.
  Lemma kids_lam {V} e (t : rtree K V) : 1 <= e -> cloned (t_value t) + total (lam 1) (t_children t) <= lam e t.
  Proof.
    intros H. destruct t as [p v c]. cbn [t_value t_children]. pose proof (cloned_lam e p v c H).
    pose proof (total_lam_mono 1 (e + length p) c ltac:(lia)). lia.
  Qed.
  (** a copy that shortens the key by [n], and what is left *)
  Lemma short_lam {V W} (a : rtree K V) (b : rtree K W) n : n = length (t_prefix a) -> n <= length (t_prefix b) ->
    t_vals b + lam 1 (Node (skipn n (t_prefix b)) (t_value b) (t_children b)) <= lam (slack a) b.
  Proof.
    intros E H. destruct b as [p v c]. cbn [t_prefix t_value t_children] in *. pose proof (lam_short 1 p v c n H) as S1.
    unfold slack. destruct (t_prefix a) as [|x q]; cbn [length] in E; subst n.
    - change 2 with (1 + 1). rewrite lam_shift. cbn [skipn] in *. lia.
    - cbn [Nat.mul] in S1. set (z := length q * t_vals (Node p v c)) in *. lia.
  Qed.

  Lemma un_copy {V} c (r : tally (rtree K V)) B : cost r <= B -> cost (spend (Work c 0) (tmap t_unsplit r)) <= B.
  Proof. intros H. exact H. Qed.
  Lemma bind_copy {X Y} (x : tally X) (f : X -> tally Y) a b :
    cost x <= a -> (forall r, fst x = Ok r -> cost (f r) <= b) -> cost (tbind x f) <= a + b.
  Proof. apply (gg_bind g_copy). Qed.
  Lemma bind_ret {X Y} (x : tally X) (g : X -> Y) : cost (tbind x (fun c => tret (g c))) = cost x.
  Proof. unfold tbind. destruct (fst x); cbn [snd]; [|reflexivity..]. cbn. lia. Qed.
  Lemma spend_copy {X} k (x : tally X) : cost (spend (Work 0 k) x) = k + cost x.
  Proof. reflexivity. Qed.

  Section With.
    Context {V W : Type} (rec : rtree K V -> rtree K W -> tally (rtree K V)) (ta tb cb : bool) (conv : rtree K W -> option (rtree K V)).
    Context (R : forall x y, WO kcmp x -> cost (rec x y) <= lam (slack x) y).
    Lemma ckids_with a b : Forall kid a -> cost (kchildren_with kcmp strat rec ta tb cb conv a b) <= total (lam 1) b.
    Proof using R.
      intros HA. destruct (kchildren_with_gg kcmp strat g_copy rec conv ta tb cb kid (fun _ => True) (fun _ => 0) (lam 1) a b) as (n & H1 & _ & H2).
      - intros x y [NE WX] _. cbn [g_copy gg Nat.add]. rewrite <- (slack_kid x NE). now apply R.
      - intros _ y _. cbn [g_copy gg w_copy]. now apply vals_lam.
      - assumption.
      - now apply Forall_forall.
      - cbn [g_copy gg w_copy] in H2. rewrite total_scale in H2. lia.
    Qed.
    Lemma csame_with a b : WO kcmp a -> cloned (t_value b) + cost (kchildren_with kcmp strat rec ta tb cb conv (t_children a) (t_children b)) <= lam (slack a) b.
    Proof using R.
      intros WA. destruct (wf_kids kcmp a WA) as [F _]. pose proof (ckids_with (t_children a) (t_children b) F).
      pose proof (kids_lam (slack a) b (slack_1 a)). lia.
    Qed.
    Lemma csame_with0 (g : list (rtree K V) -> rtree K V) a b : WO kcmp a ->
      cost (tbind (kchildren_with kcmp strat rec ta tb cb conv (t_children a) (t_children b)) (fun c => tret (g c))) <= lam (slack a) b.
    Proof using R. intros WA. rewrite bind_ret. pose proof (csame_with a b WA). lia. Qed.
    Lemma cdown_with (g : list (rtree K V) -> rtree K V) a b n : WO kcmp a -> n = length (t_prefix a) ->
      cost (tbind (kmat_short b n) (fun that => tbind (kchildren_with kcmp strat rec ta tb cb conv (t_children a) [that]) (fun c => tret (g c)))) <= lam (slack a) b.
    Proof using R.
      intros WA ->. destruct (wf_kids kcmp a WA) as [F _]. unfold tbind at 1. unfold kmat_short at 1. cbn [fst].
      pose proof (vals_lam b (slack a) (slack_1 a)).
      destruct (mat_short b (length (t_prefix a))) as [r| |] eqn:E; cbn [snd kmat_short w_copy wadd]; [|lia..].
      apply mat_short_inv in E as [L1 ->]. rewrite bind_ret.
      pose proof (ckids_with (t_children a) [Node (skipn (length (t_prefix a)) (t_prefix b)) (t_value b) (t_children b)] F) as Q.
      rewrite total_cons in Q. change (total (lam 1) (@nil (rtree K W))) with 0 in Q.
      pose proof (short_lam a b _ eq_refl ltac:(lia)). lia.
    Qed.
    Lemma cup_with (g : rtree K V -> list (rtree K V) -> rtree K V) (h : rtree K V -> nat) a b n : WO kcmp a -> n = length (t_prefix b) ->
      (forall s, h s <= cloned (t_value b)) ->
      cost (tbind (t_split a n, wk0) (fun self => spend (Work 0 (h self)) (tbind (kchildren_with kcmp strat rec ta tb cb conv (t_children self) (t_children b)) (fun c => tret (g self c)))))
        <= lam (slack a) b.
    Proof using R.
      intros WA -> HH. unfold tbind at 1. cbn [fst]. destruct (t_split a (length (t_prefix b))) as [r| |] eqn:E; cbn [snd w_copy wadd wk0]; [|lia..].
      apply split_inv in E as [L1 ->]. rewrite spend_copy, bind_ret. cbn [t_children].
      pose proof (ckids_with [Node (skipn (length (t_prefix b)) (t_prefix a)) (t_value a) (t_children a)] (t_children b)) as Q.
      assert (F : Forall kid [Node (skipn (length (t_prefix b)) (t_prefix a)) (t_value a) (t_children a)]).
      { constructor; [|constructor]. cbn [t_prefix]. split.
        - intros Z. apply (f_equal (@length K)) in Z. rewrite skipn_length in Z. cbn in Z. lia.
        - destruct a as [p v c]. unfold WO in *. cbn [t_prefix t_value t_children] in *. cbn [wf] in *. intuition congruence. }
      specialize (Q F). pose proof (kids_lam (slack a) b (slack_1 a)).
      specialize (HH (Node (firstn (length (t_prefix b)) (t_prefix a)) None [Node (skipn (length (t_prefix b)) (t_prefix a)) (t_value a) (t_children a)])). lia.
    Qed.
    Lemma cup_with0 (g : rtree K V -> list (rtree K V) -> rtree K V) a b n : WO kcmp a -> n = length (t_prefix b) ->
      cost (tbind (t_split a n, wk0) (fun self => (tbind (kchildren_with kcmp strat rec ta tb cb conv (t_children self) (t_children b)) (fun c => tret (g self c)))))
        <= lam (slack a) b.
    Proof using R.
      intros WA H. etransitivity; [|apply (cup_with g (fun _ => 0) a b n WA H); intros; lia].
      unfold tbind at 1 3. destruct (fst (t_split a n, wk0)); cbn [snd]; [now rewrite spend0|reflexivity..].
    Qed.
  End With.

  Ltac cstart a b n c E :=
    destruct (common_prefix_count kcmp (t_prefix a) (t_prefix b)) as [n c] eqn:E; apply cpc_bounds in E as (L1 & L2 & L3 & L4);
    cbv zeta; apply un_copy;
    destruct (Nat.eqb_spec n (length (t_prefix a))) as [E1|N1]; destruct (Nat.eqb_spec n (length (t_prefix b))) as [E2|N2]; cbn [andb].
  Ltac cfin IH :=
    repeat match goal with |- context [if ?c then _ else _] => destruct c end;
    first [ cbn; lia
          | apply csame_with0; assumption
          | apply cdown_with; assumption
          | apply cup_with0; assumption ].
  Lemma outer_with_copy {V} (f : V -> V -> V * bool) fuel : forall a b, WO kcmp a -> cost (kouter_with kcmp strat f fuel a b) <= lam (slack a) b.
  Proof.
    induction fuel as [|fuel IH]; intros a b WA; cbn [kouter_with]; [cbn; lia|]. cstart a b n c E.
    - rewrite spend_copy, bind_ret.
      pose proof (csame_with (kouter_with kcmp strat f fuel) true true true mat_conv IH a b WA) as Q.
      assert (clone_upd (t_value a) (t_value b) <= cloned (t_value b)) by (destruct (t_value a), (t_value b); cbn; lia). lia.
    - cfin IH.
    - apply (cup_with (kouter_with kcmp strat f fuel) true true true mat_conv IH
        (fun self c => Node (t_prefix self) (upd_outer f (t_value self) (t_value b)) c) (fun self => clone_upd (t_value self) (t_value b)) a b n WA E2).
      intros s. destruct (t_value s), (t_value b); cbn; lia.
    - pose proof (vals_lam b (slack a) (slack_1 a)). unfold tbind, kmat_short, ksort_heads. cbn [fst snd].
      destruct (t_split a n); cbn [fst snd]; [|cbn; lia..]. destruct (mat_short b n); cbn [fst snd]; [|cbn; lia..].
      destruct (sort_heads _ _); cbn [fst snd tret w_copy wadd wk0]; lia.
  Qed.
  Lemma inner_with_copy {V W} (f : V -> W -> V * bool) fuel : forall a b, WO kcmp a -> cost (kinner_with kcmp strat f fuel a b) <= lam (slack a) b.
  Proof. induction fuel as [|fuel IH]; intros a b WA; cbn [kinner_with]; [cbn; lia|]. cstart a b n c E; cfin IH. Qed.
  Lemma left_with_copy {V W} (f : V -> W -> V * bool) fuel : forall a b, WO kcmp a -> cost (kleft_with kcmp strat f fuel a b) <= lam (slack a) b.
  Proof. induction fuel as [|fuel IH]; intros a b WA; cbn [kleft_with]; [cbn; lia|]. cstart a b n c E; cfin IH. Qed.
  Lemma remove_with_copy {V W} (f : W -> bool) fuel : forall (a : rtree K V) b, WO kcmp a -> cost (kremove_with kcmp strat f fuel a b) <= lam (slack a) b.
  Proof. induction fuel as [|fuel IH]; intros a b WA; cbn [kremove_with]; [cbn; lia|]. cstart a b n c E; cfin IH. Qed.
  Lemma retain_with_copy {V W} (f : W -> bool) fuel : forall (a : rtree K V) b, WO kcmp a -> cost (kretain_with kcmp strat f fuel a b) <= lam (slack a) b.
  Proof. induction fuel as [|fuel IH]; intros a b WA; cbn [kretain_with]; [cbn; lia|]. cstart a b n c E; cfin IH. Qed.

  Lemma short_kid {V} (a : rtree K V) n : WO kcmp a -> n < length (t_prefix a) ->
    Forall kid [Node (skipn n (t_prefix a)) (t_value a) (t_children a)].
  Proof.
    intros WA H. constructor; [|constructor]. cbn [t_prefix]. split.
    - intros Z. apply (f_equal (@length K)) in Z. rewrite skipn_length in Z. cbn in Z. lia.
    - destruct a as [p v c]. unfold WO in *. cbn [t_prefix t_value t_children] in *. cbn [wf] in *. intuition congruence.
  Qed.
  Section Pure.
    Context {V W : Type} (rec : rtree K V -> rtree K W -> tally (rtree K V)) (ta tb cca ccb : bool)
      (ca : rtree K V -> option (rtree K V)) (cb : rtree K W -> option (rtree K V)).
    Context (R : forall x y, WO kcmp x -> WO kcmp y -> cost (rec x y) <= lam (slack y) x + lam (slack x) y).
    Notation kids := (kchildren_pure kcmp strat rec ta tb cca ccb ca cb).
    Lemma ckids_pure a b : Forall kid a -> Forall kid b -> cost (kids a b) <= total (lam 1) a + total (lam 1) b.
    Proof using R.
      intros HA HB. destruct (kchildren_pure_gg kcmp strat g_copy rec ca cb ta tb cca ccb kid kid (lam 1) (lam 1) a b) as (n & H1 & H2).
      - intros x y [NX WX] [NY WY]. cbn [g_copy gg Nat.add]. pose proof (R x y WX WY) as Q. now rewrite (slack_kid x NX), (slack_kid y NY) in Q.
      - intros _ y _. cbn [g_copy gg w_copy]. now apply vals_lam.
      - intros _ y _. cbn [g_copy gg w_copy]. now apply vals_lam.
      - assumption.
      - assumption.
      - cbn [g_copy gg w_copy] in H2. lia.
    Qed.
    Lemma csame_pure (g : list (rtree K V) -> rtree K V) k a b : WO kcmp a -> WO kcmp b -> k <= cloned (t_value a) + cloned (t_value b) ->
      cost (spend (Work 0 k) (tbind (kids (t_children a) (t_children b)) (fun c => tret (g c)))) <= lam (slack b) a + lam (slack a) b.
    Proof using R.
      intros WA WB HK. rewrite spend_copy, bind_ret. pose proof (ckids_pure _ _ (proj1 (wf_kids kcmp a WA)) (proj1 (wf_kids kcmp b WB))).
      pose proof (kids_lam (slack a) b (slack_1 a)). pose proof (kids_lam (slack b) a (slack_1 b)). lia.
    Qed.
    Lemma cdown_pure (g : list (rtree K V) -> rtree K V) k a b n : WO kcmp a -> WO kcmp b -> k <= cloned (t_value a) -> n = length (t_prefix a) ->
      cost (tbind (kmat_short b n) (fun b => spend (Work 0 k) (tbind (kids (t_children a) [b]) (fun c => tret (g c))))) <= lam (slack b) a + lam (slack a) b.
    Proof using R.
      intros WA WB HK ->. unfold tbind at 1. unfold kmat_short at 1. cbn [fst]. pose proof (vals_lam b (slack a) (slack_1 a)).
      destruct (mat_short b (length (t_prefix a))) as [r| |] eqn:E; cbn [snd kmat_short w_copy wadd]; [|lia..].
      apply mat_short_inv in E as [L1 ->]. rewrite spend_copy, bind_ret.
      pose proof (ckids_pure (t_children a) _ (proj1 (wf_kids kcmp a WA)) (short_kid b _ WB L1)) as Q.
      rewrite (total_cons (lam 1)) in Q. change (total (lam 1) (@nil (rtree K W))) with 0 in Q.
      pose proof (short_lam a b _ eq_refl ltac:(lia)). pose proof (kids_lam (slack b) a (slack_1 b)). lia.
    Qed.
    Lemma cup_pure (g : list (rtree K V) -> rtree K V) k a b n : WO kcmp a -> WO kcmp b -> k <= cloned (t_value b) -> n = length (t_prefix b) ->
      cost (tbind (kmat_short a n) (fun a => spend (Work 0 k) (tbind (kids [a] (t_children b)) (fun c => tret (g c))))) <= lam (slack b) a + lam (slack a) b.
    Proof using R.
      intros WA WB HK ->. unfold tbind at 1. unfold kmat_short at 1. cbn [fst]. pose proof (vals_lam a (slack b) (slack_1 b)).
      destruct (mat_short a (length (t_prefix b))) as [r| |] eqn:E; cbn [snd kmat_short w_copy wadd]; [|lia..].
      apply mat_short_inv in E as [L1 ->]. rewrite spend_copy, bind_ret.
      pose proof (ckids_pure _ (t_children b) (short_kid a _ WA L1) (proj1 (wf_kids kcmp b WB))) as Q.
      rewrite (total_cons (lam 1)) in Q. change (total (lam 1) (@nil (rtree K V))) with 0 in Q.
      pose proof (short_lam b a _ eq_refl ltac:(lia)). pose proof (kids_lam (slack a) b (slack_1 a)). lia.
    Qed.
    Lemma csame_pure0 (g : list (rtree K V) -> rtree K V) a b : WO kcmp a -> WO kcmp b ->
      cost (tbind (kids (t_children a) (t_children b)) (fun c => tret (g c))) <= lam (slack b) a + lam (slack a) b.
    Proof using R. intros WA WB. rewrite <- (spend0 (tbind _ _)). apply csame_pure; auto. lia. Qed.
    Lemma cdown_pure0 (g : list (rtree K V) -> rtree K V) a b n : WO kcmp a -> WO kcmp b -> n = length (t_prefix a) ->
      cost (tbind (kmat_short b n) (fun b => tbind (kids (t_children a) [b]) (fun c => tret (g c)))) <= lam (slack b) a + lam (slack a) b.
    Proof using R.
      intros WA WB H. etransitivity; [|apply (cdown_pure g 0 a b n WA WB); [lia|assumption]].
      unfold tbind at 1 3. destruct (fst (kmat_short b n)); cbn [snd]; [now rewrite spend0|reflexivity..].
    Qed.
    Lemma cup_pure0 (g : list (rtree K V) -> rtree K V) a b n : WO kcmp a -> WO kcmp b -> n = length (t_prefix b) ->
      cost (tbind (kmat_short a n) (fun a => tbind (kids [a] (t_children b)) (fun c => tret (g c)))) <= lam (slack b) a + lam (slack a) b.
    Proof using R.
      intros WA WB H. etransitivity; [|apply (cup_pure g 0 a b n WA WB); [lia|assumption]].
      unfold tbind at 1 3. destruct (fst (kmat_short a n)); cbn [snd]; [now rewrite spend0|reflexivity..].
    Qed.
  End Pure.
  Ltac cfinp IH :=
    first [ cbn; lia
          | apply csame_pure0; assumption
          | apply cdown_pure; auto
          | apply cdown_pure0; assumption
          | apply cup_pure; auto
          | apply cup_pure0; assumption ].
  Lemma outer_pure_copy {V} (f : V -> V -> option V) fuel : forall a b, WO kcmp a -> WO kcmp b ->
    cost (kouter_pure kcmp strat f fuel a b) <= lam (slack b) a + lam (slack a) b.
  Proof.
    induction fuel as [|fuel IH]; intros a b WA WB; cbn [kouter_pure]; [cbn; lia|]. cstart a b n c E.
    - apply csame_pure; auto. destruct (t_value a), (t_value b); cbn; lia.
    - cfinp IH.
    - cfinp IH.
    - pose proof (vals_lam b (slack a) (slack_1 a)). pose proof (vals_lam a (slack b) (slack_1 b)).
      unfold tbind, kmat_short, ksort_heads. cbn [fst snd].
      destruct (mat_short a n); cbn [fst snd]; [|cbn; lia..]. destruct (mat_short b n); cbn [fst snd]; [|cbn; lia..].
      destruct (sort_heads _ _); cbn [fst snd tret w_copy wadd wk0]; lia.
  Qed.
  Lemma inner_pure_copy {V W} (f : V -> W -> option V) fuel : forall a b, WO kcmp a -> WO kcmp b ->
    cost (kinner_pure kcmp strat f fuel a b) <= lam (slack b) a + lam (slack a) b.
  Proof. induction fuel as [|fuel IH]; intros a b WA WB; cbn [kinner_pure]; [cbn; lia|]. cstart a b n c E; cfinp IH. Qed.
  Lemma left_pure_copy {V W} (f : V -> option W -> option V) fuel : forall a b, WO kcmp a -> WO kcmp b ->
    cost (kleft_pure kcmp strat f fuel a b) <= lam (slack b) a + lam (slack a) b.
  Proof.
    induction fuel as [|fuel IH]; intros a b WA WB; cbn [kleft_pure]; [cbn; lia|]. cstart a b n c E; try cfinp IH.
    rewrite spend_copy, bind_ret. cbn [kmat_all snd w_copy]. pose proof (vals_lam a (slack b) (slack_1 b)) as H.
    destruct a as [p v cs]. cbn [t_value t_children] in *. rewrite vals_node in H. lia.
  Qed.

  (** the predicates clone nothing *)
  Lemma kany_copy {X} (p : X -> tally bool) l : (forall x, cost (p x) = 0) -> cost (kany p l) = 0.
  Proof.
    intros H. induction l as [|x l IH]; [reflexivity|]. cbn [kany]. unfold tbind. destruct (fst (p x)) as [[|]| |]; cbn [snd tret]; rewrite ?H; try reflexivity.
    - cbn [w_copy wadd wk0]. now rewrite H.
    - cbn [w_copy wadd]. now rewrite H, IH.
  Qed.
  Lemma kall_copy {X} (p : X -> tally bool) l : (forall x, cost (p x) = 0) -> cost (kall p l) = 0.
  Proof.
    intros H. induction l as [|x l IH]; [reflexivity|]. cbn [kall]. unfold tbind. destruct (fst (p x)) as [[|]| |]; cbn [snd tret]; rewrite ?H; try reflexivity.
    - cbn [w_copy wadd]. now rewrite H, IH.
    - cbn [w_copy wadd wk0]. now rewrite H.
  Qed.
  Lemma kbs_copy {V W} (rec : rtree K V -> rtree K W -> tally bool) ta a b : (forall x y, cost (rec x y) = 0) ->
    cost (kbs_merge kcmp strat rec ta a b) = 0.
  Proof.
    intros H. destruct (kbs_merge_gg kcmp strat g_copy rec ta (fun _ => True) (fun _ => True) (fun _ => 0) (fun _ => 0) a b) as (n & _ & H2).
    - intros x y _ _. cbn [g_copy gg]. rewrite H. lia.
    - now apply Forall_forall.
    - now apply Forall_forall.
    - cbn [g_copy gg w_copy] in H2. rewrite !total_scale in H2. lia.
  Qed.
  Lemma intersects_copy {V W} fuel : forall (l : rtree K V) lp (r : rtree K W) rp, cost (kintersects0 kcmp strat fuel l lp r rp) = 0.
  Proof.
    induction fuel as [|fuel IH]; intros l lp r rp; cbn [kintersects0]; [reflexivity|].
    destruct (common_prefix_count kcmp lp rp) as [n c]. rewrite (gg_spend g_copy). cbn [g_copy gg w_copy Nat.add].
    destruct (_ && _); [destruct (match t_value l with Some _ => _ | None => _ end); [reflexivity|now apply kbs_copy]|].
    destruct (n =? length lp); [now apply kany_copy|]. destruct (n =? length rp); [now apply kany_copy|reflexivity].
  Qed.
  Lemma is_subset_copy {V W} fuel : forall (l : rtree K V) lp (r : rtree K W) rp, cost (kis_subset0 kcmp strat fuel l lp r rp) = 0.
  Proof.
    induction fuel as [|fuel IH]; intros l lp r rp; cbn [kis_subset0]; [reflexivity|].
    destruct (common_prefix_count kcmp lp rp) as [n c]. rewrite (gg_spend g_copy). cbn [g_copy gg w_copy Nat.add].
    destruct (_ && _). { destruct (match t_value l with Some _ => _ | None => _ end); [|reflexivity]. cbn [tmap snd]. apply kbs_copy. intros. apply IH. }
    destruct (n =? length lp); [destruct (t_value l); [reflexivity|now apply kall_copy]|].
    destruct (n =? length rp); [now apply kany_copy|reflexivity].
  Qed.
End Copy.

(** ** Canonical trees weigh what their entries weigh *)
Section Canonical.
  Context {K V : Type} (kcmp : K -> K -> comparison).
  Notation tree := (rtree K V).
  Lemma listing_parts p v (c : list tree) :
    length (listing (Node p v c)) = cloned v + total (fun x => length (listing x)) c /\
    total (fun kv => length (fst kv)) (listing (Node p v c)) =
      length p * (cloned v + total (fun x => length (listing x)) c) + total (fun x => total (fun kv => length (fst kv)) (listing x)) c.
  Proof.
    cbn [listing].
    assert (F : forall l : list tree, length (flat_map listing l) = total (fun x => length (listing x)) l).
    { induction l as [|x l IH]; [reflexivity|]. cbn [flat_map]. now rewrite app_length, total_cons, IH. }
    assert (G : forall l : list tree, total (fun kv => length (fst kv)) (flat_map listing l) = total (fun x => total (fun kv => length (fst kv)) (listing x)) l).
    { induction l as [|x l IH]; [reflexivity|]. cbn [flat_map]. rewrite total_cons, <- IH. unfold total. now rewrite map_app, list_sum_app. }
    assert (M : forall l : list (list K * V), total (fun kv => length (fst kv)) (map (under p) l) = length p * length l + total (fun kv => length (fst kv)) l).
    { induction l as [|x l IH]; [cbn; lia|]. cbn [map length]. rewrite !total_cons, IH. unfold under at 1. cbn [fst]. rewrite app_length. lia. }
    assert (T : forall l m : list (list K * V), total (fun kv => length (fst kv)) (l ++ m) = total (fun kv => length (fst kv)) l + total (fun kv => length (fst kv)) m).
    { intros l m. unfold total. now rewrite map_app, list_sum_app. }
    rewrite map_length, M, app_length, F, T, G.
    destruct v; cbn [cloned length]; [rewrite total_cons; cbn [fst length]|]; change (total _ (@nil (list K * V))) with 0; split; lia.
  Qed.
  Lemma canon_weight (t : tree) : Canon kcmp t ->
    (t_is_empty t = false -> 1 <= length (listing t) /\ t_size t + 1 <= 2 * length (listing t) /\
       comps t <= total (fun kv => length (fst kv)) (listing t)) /\
    (t_is_empty t = true -> t_size t = 1 /\ comps t = 0).
  Proof.
    unfold Canon. induction t as [p v cs IH] using rtree_ind'. intros W.
    pose proof W as W0. cbn [wf] in W0. destruct W0 as (_ & _ & Q & _). specialize (Q eq_refl) as (Q1 & Q2 & Q3).
    apply wf_wfc in W. cbn [t_children] in W. split.
    - intros NE. destruct (listing_parts p v cs) as [P1 P2]. rewrite P1, P2. cbn [t_size comps].
      fold (total (@t_size K V) cs). fold (total (@comps K V) cs).
      assert (Z : length cs <= total (fun x => length (listing x)) cs /\
        total (@t_size K V) cs + length cs <= 2 * total (fun x => length (listing x)) cs /\
        total (@comps K V) cs <= total (fun x => total (fun kv => length (fst kv)) (listing x)) cs).
      { clear P1 P2 NE Q1 Q2. induction cs as [|x cs IHc]; [cbn; lia|]. inversion IH as [|? ? H1 H2]; subst. inversion Q3 as [|? ? N1 N2]; subst.
        apply wfc_cons in W as (_ & _ & _ & W1 & W2). specialize (IHc H2 W2 N2). specialize (H1 W1) as [H1 _]. specialize (H1 N1).
        rewrite !total_cons. cbn [length]. lia. }
      set (N := total (fun x => length (listing x)) cs) in *.
      set (A := total (fun x => total (fun kv => length (fst kv)) (listing x)) cs) in *.
      unfold t_is_empty in NE. cbn [t_value t_children] in NE.
      destruct v; cbn [cloned].
      + split; [lia|split; [lia|]]. nia.
      + specialize (Q2 eq_refl). destruct cs as [|x [|y cs]]; [discriminate|cbn in Q2; lia|]. cbn [length] in Z.
        split; [lia|split; [lia|]]. nia.
    - intros NE. unfold t_is_empty in NE. cbn [t_value t_children] in NE. destruct v; [discriminate|]. destruct cs; [|discriminate].
      specialize (Q1 eq_refl eq_refl). subst p. now cbn.
  Qed.
  Lemma psi_canon (t : tree) : Canon kcmp t -> psi t <= total (fun kv => length (fst kv) + 14) (listing t) + 1.
  Proof.
    intros C. apply canon_weight in C as [C1 C2]. rewrite total_add, total_scale. unfold psi.
    destruct (t_is_empty t); [destruct (C2 eq_refl) as [E1 E2]|destruct (C1 eq_refl) as (E1 & E2 & E3)]; lia.
  Qed.
End Canonical.

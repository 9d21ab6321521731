(** Facts about archived radix trees as memory: acceptance implies a readable tree, lookup in place,
    and what writing produces is accepted exactly when the tree is well ordered. *)
From Verif Require Export ArchiveFacts.

Section Tree.
  Context (kcmp : nat -> nat -> comparison) (b : buf).

  Lemma tree_words f pos t : rd_tree b f pos = Got t ->
    exists f' pp pn pre tag v kp kn kids, f = S f' /\ rd b pos = Got pp /\ rd b (pos + 1) = Got pn /\ rd_slice b pp pn = Got pre /\
      rd b (pos + 2) = Got tag /\ rd b (pos + 3) = Got v /\ rd b (pos + 4) = Got kp /\ rd b (pos + 5) = Got kn /\
      rd_elems (rd_tree b f') nw kp kn = Got kids /\ t = Node pre (if tag =? 0 then None else Some v) kids.
  Proof.
    destruct f as [|f]; [discriminate|]. cbn [rd_tree]. intros H.
    apply mbind_got in H as (pp & E1 & H). apply mbind_got in H as (pn & E2 & H). apply mbind_got in H as (pre & E3 & H).
    apply mbind_got in H as (tag & E4 & H). apply mbind_got in H as (v & E5 & H). apply mbind_got in H as (kp & E6 & H).
    apply mbind_got in H as (kn & E7 & H). apply mbind_got in H as (kids & E8 & H). injection H as <-.
    exists f, pp, pn, pre, tag, v, kp, kn, kids. repeat split; auto.
  Qed.
  Lemma tree_len f pos t : rd_tree b f pos = Got t -> rd b (pos + 1) = Got (length (t_prefix t)).
  Proof.
    intros H. destruct (tree_words _ _ _ H) as (f' & pp & pn & pre & tag & v & kp & kn & kids & _ & _ & E2 & E3 & _ & _ & _ & _ & _ & ->).
    cbn [t_prefix]. now rewrite (rd_slice_len _ _ _ _ E3).
  Qed.
  Lemma tree_head f pos t x p : rd_tree b f pos = Got t -> t_prefix t = x :: p -> rd_head b pos = Got x.
  Proof.
    intros H Q. destruct (tree_words _ _ _ H) as (f' & pp & pn & pre & tag & v & kp & kn & kids & _ & E1 & E2 & E3 & _ & _ & _ & _ & _ & ->).
    cbn [t_prefix] in Q. subst pre. destruct pn as [|pn]; [discriminate|]. cbn [rd_slice] in E3.
    apply mbind_got in E3 as (w & E & E3). apply mbind_got in E3 as (ws & E' & E3). injection E3 as -> ->.
    unfold rd_head. rewrite E1. exact E.
  Qed.
  Lemma nonempty_ok f n : forall p ts, rd_elems (rd_tree b f) nw p n = Got ts -> all_nonempty b p n = Got (forallb has_head ts).
  Proof.
    induction n as [|n IH]; intros p ts H; [now injection H as <-|].
    destruct ts as [|t ts]. { apply rd_elems_nth in H as [H _]. discriminate. }
    apply rd_elems_cons in H as [E H]. cbn [all_nonempty]. rewrite (tree_len _ _ _ E). cbn [mbind].
    cbn [forallb]. unfold has_head at 1. destruct (t_prefix t); cbn [length Nat.eqb andb]; [reflexivity|]. now apply IH.
  Qed.
  Lemma heads_ok f n : forall p ts, rd_elems (rd_tree b f) nw p n = Got ts -> forallb has_head ts = true ->
    heads_lt kcmp b p n = Got (adjacent_lt kcmp ts).
  Proof.
    induction n as [|n IH]; intros p ts H F; [now injection H as <-|].
    destruct ts as [|t ts]. { apply rd_elems_nth in H as [H _]. discriminate. }
    apply rd_elems_cons in H as [E H]. destruct n as [|n]; [injection H as <-; reflexivity|].
    destruct ts as [|t2 ts]. { apply rd_elems_nth in H as [H _]. discriminate. }
    cbn [forallb] in F. apply andb_true_iff in F as [F1 F2].
    pose proof (IH _ _ H F2) as Q. clear IH. pose proof H as H'. apply rd_elems_cons in H' as [E2 _].
    apply andb_true_iff in F2 as [F2 _]. unfold has_head in F1, F2.
    destruct (t_prefix t) as [|x p1] eqn:P1; [discriminate|]. destruct (t_prefix t2) as [|y p2] eqn:P2; [discriminate|].
    cbn [adjacent_lt]. unfold head_cmp at 1. rewrite P1, P2.
    remember (S n) as m. cbn [heads_lt]. subst m. rewrite (tree_head _ _ _ _ _ E P1). cbn [mbind].
    set (rest := heads_lt kcmp b (p + nw) (S n)) in *. rewrite (tree_head _ _ _ _ _ E2 P2). cbn [mbind].
    destruct (kcmp x y); [reflexivity|exact Q|reflexivity].
  Qed.

  Lemma node_got_range f pos lo hi l : node_check kcmp b f pos lo hi = Got l -> lo <= l <= hi.
  Proof.
    destruct f as [|f]; [discriminate|]. cbn [node_check]. intros H.
    apply mbind_got in H as (lo1 & E1 & H). apply mbind_got in H as (tag & _ & H). destruct (1 <? tag); [discriminate|].
    apply mbind_got in H as (v & _ & H). apply mbind_got in H as (kp & _ & H). apply mbind_got in H as (kn & _ & H).
    apply mbind_got in H as (ne & _ & H). destruct ne; [|discriminate]. cbn [negb] in H.
    apply mbind_got in H as (od & _ & H). destruct od; [|discriminate]. cbn [negb] in H.
    apply check_vec_got in E1 as (p & n & l' & _ & _ & A & B & -> & _).
    apply check_vec_got in H as (p2 & n2 & l2 & _ & _ & A2 & B2 & -> & _). lia.
  Qed.
  Lemma check_elems_deep elem sz n : forall p lo hi,
    (forall q lo', elem q lo' hi <> TooDeep) -> check_elems elem sz p n lo hi <> TooDeep.
  Proof.
    induction n as [|n IH]; intros p lo hi H; cbn [check_elems]; [discriminate|]. specialize (H p lo) as H0.
    destruct (elem p lo hi) as [| | |l]; cbn [mbind]; try easy. now apply IH.
  Qed.
  Lemma all_nonempty_deep n : forall p, all_nonempty b p n <> TooDeep.
  Proof.
    induction n as [|n IH]; intros p; cbn [all_nonempty]; [discriminate|]. unfold rd. destruct (nth_error b (p + 1)) as [[|w]|]; cbn; try easy.
  Qed.
  Lemma heads_lt_deep n : forall p, heads_lt kcmp b p n <> TooDeep.
  Proof.
    induction n as [|[|n] IH]; intros p; try discriminate. remember (S n) as m. cbn [heads_lt]. subst m.
    set (rest := heads_lt kcmp b (p + nw) (S n)). specialize (IH (p + nw)). fold rest in IH. clearbody rest.
    unfold rd_head, rd. destruct (nth_error b p) as [q|]; cbn [mbind]; [|easy]. destruct (nth_error b q) as [x|]; cbn [mbind]; [|easy].
    destruct (nth_error b (p + nw)) as [q2|]; cbn [mbind]; [|easy]. destruct (nth_error b q2) as [y|]; cbn [mbind]; [|easy]. now destruct (kcmp x y).
  Qed.
  Lemma node_deep f : forall pos lo hi, hi < f -> node_check kcmp b f pos lo hi <> TooDeep.
  Proof.
    induction f as [|f IH]; intros pos lo hi H; [lia|]. cbn [node_check].
    assert (A : forall pos' elem sz lo', (forall q n l, rd b pos' = Got q -> rd b (S pos') = Got n -> lo' <= q -> q + sz * n <= hi -> 0 < n -> forall p, elem p l q <> TooDeep) ->
      check_vec b elem sz pos' lo' hi <> TooDeep).
    { intros pos' elem sz lo' Q. unfold check_vec. destruct (rd b pos') as [| | |q] eqn:E; cbn [mbind]; try easy; [unfold rd in E; now destruct (nth_error b pos')|].
      destruct (rd b (S pos')) as [| | |n] eqn:E2; cbn [mbind]; try easy; [unfold rd in E2; now destruct (nth_error b (S pos'))|].
      destruct (in_range lo' hi q (sz * n)) eqn:R; [|easy]. apply in_range_ok in R.
      destruct n as [|n]; [easy|].
      pose proof (check_elems_deep elem sz (S n) q lo' q) as D. destruct (check_elems elem sz q (S n) lo' q); cbn [mbind]; try easy.
      exfalso. apply D; auto. intros p l. apply (Q q (S n)); auto; lia. }
    pose proof (A pos (check_word b) 1 lo) as A1.
    destruct (check_vec b (check_word b) 1 pos lo hi) as [| | |lo1]; cbn [mbind]; try easy.
    { exfalso. apply A1; auto. intros q n l _ _ _ _ _ p. unfold check_word, rd. destruct (nth_error b p); cbn; discriminate. }
    unfold rd at 1. destruct (nth_error b (pos + 2)) as [tag|]; cbn [mbind]; [|easy]. destruct (1 <? tag); [easy|].
    unfold rd at 1. destruct (nth_error b (pos + 3)) as [v|]; cbn [mbind]; [|easy].
    unfold rd at 1. destruct (nth_error b (pos + 4)) as [kp|]; cbn [mbind]; [|easy].
    unfold rd at 1. destruct (nth_error b (pos + 5)) as [kn|]; cbn [mbind]; [|easy].
    pose proof (all_nonempty_deep kn kp) as D. destruct (all_nonempty b kp kn) as [| | |[|]]; cbn [mbind negb]; try easy. clear D.
    pose proof (heads_lt_deep kn kp) as D. destruct (heads_lt kcmp b kp kn) as [| | |[|]]; cbn [mbind negb]; try easy. clear D.
    apply A. intros q n l _ _ Hq Hn Hpos p. apply IH. unfold nw in Hn. lia.
  Qed.

  (** an accepted node can be read completely, and is well ordered *)
  Lemma node_sound f : forall pos lo hi l, hi <= length b -> node_check kcmp b f pos lo hi = Got l ->
    exists t, rd_tree b f pos = Got t /\ rt_check kcmp t = true.
  Proof.
    induction f as [|f IH]; intros pos lo hi l Hb H; [discriminate|]. cbn [node_check] in H.
    apply mbind_got in H as (lo1 & E1 & H). apply mbind_got in H as (tag & E2 & H). destruct (1 <? tag); [discriminate|].
    apply mbind_got in H as (v & E3 & H). apply mbind_got in H as (kp & E4 & H). apply mbind_got in H as (kn & E5 & H).
    apply mbind_got in H as (ne & E6 & H). destruct ne; [|discriminate]. cbn [negb] in H.
    apply mbind_got in H as (od & E7 & H). destruct od; [|discriminate]. cbn [negb] in H.
    apply check_vec_got in E1 as (pp & pn & l1 & P1 & P2 & A & B & -> & _).
    apply check_vec_got in H as (p2 & n2 & l2 & Q1 & Q2 & A2 & B2 & -> & C).
    rewrite E4 in Q1. injection Q1 as <-. replace (S (pos + 4)) with (pos + 5) in Q2 by lia. rewrite E5 in Q2. injection Q2 as <-.
    destruct (rd_slice_in b pn pp) as (pre & R & _); [lia|].
    assert (EA : forall i, i < kn -> exists t, rd_tree b f (kp + nw * i) = Got t /\ rt_check kcmp t = true).
    { intros i Hi. destruct (check_elems_each _ _ _ _ _ _ _ (fun i lo' l' _ Hc _ => node_got_range f _ _ _ _ Hc) A2 C i Hi) as (lo' & l' & _ & Q).
      apply (IH (kp + nw * i) lo' kp l'); [lia|exact Q]. }
    destruct (rd_elems_in (rd_tree b f) nw kn kp) as (kids & RK & LK). { intros i Hi. destruct (EA i Hi) as (t & Q & _). now exists t. }
    cbn [rd_tree]. rewrite P1. cbn [mbind]. replace (pos + 1) with (S pos) by lia. rewrite P2. cbn [mbind]. rewrite R. cbn [mbind].
    rewrite E2. cbn [mbind]. rewrite E3. cbn [mbind]. rewrite E4. cbn [mbind]. rewrite E5. cbn [mbind]. rewrite RK. cbn [mbind].
    eexists. split; [reflexivity|]. cbn [rt_check].
    rewrite (nonempty_ok _ _ _ _ RK) in E6. injection E6 as E6. rewrite E6. rewrite (heads_ok _ _ _ _ RK E6) in E7. injection E7 as E7. rewrite E7.
    cbn [andb]. apply forallb_forall. intros t Ht. apply In_nth_error in Ht as [i Hi].
    assert (Hl : i < kn). { rewrite <- LK. apply nth_error_Some. congruence. }
    destruct (EA i Hl) as (t' & T1 & T2). apply rd_elems_nth in RK as [_ RK]. destruct (RK i Hl) as (t2 & T3 & T4).
    rewrite Hi in T3. injection T3 as <-. rewrite T1 in T4. now injection T4 as ->.
  Qed.
End Tree.

(** ** Binary search over related lists *)
Lemma bs_loop_rel {X Y} (f : X -> option comparison) (g : Y -> option comparison) l l' :
  length l = length l' -> (forall i x y, nth_error l i = Some x -> nth_error l' i = Some y -> f x = g y) ->
  forall fuel lo hi c, bs_loop f l fuel lo hi c = bs_loop g l' fuel lo hi c.
Proof.
  intros HL H. induction fuel as [|fuel IH]; intros lo hi c; [reflexivity|]. cbn [bs_loop]. destruct (lo <? hi); [|reflexivity].
  destruct (nth_error l (lo + (hi - lo) / 2)) as [x|] eqn:E; destruct (nth_error l' (lo + (hi - lo) / 2)) as [y|] eqn:E'; auto.
  - rewrite (H _ _ _ E E'). destruct (g y) as [[]|]; auto.
  - exfalso. apply nth_error_None in E'. assert (N : nth_error l (lo + (hi - lo) / 2) <> None) by congruence. apply nth_error_Some in N. lia.
  - exfalso. apply nth_error_None in E. assert (N : nth_error l' (lo + (hi - lo) / 2) <> None) by congruence. apply nth_error_Some in N. lia.
Qed.
Lemma bsearch_rel {X Y} (f : X -> option comparison) (g : Y -> option comparison) l l' :
  length l = length l' -> (forall i x y, nth_error l i = Some x -> nth_error l' i = Some y -> f x = g y) -> bsearch f l = bsearch g l'.
Proof. intros HL H. unfold bsearch, bs_count. rewrite HL. f_equal. now apply bs_loop_rel. Qed.

Section Lookup.
  Context (kcmp : nat -> nat -> comparison) (b : buf).
  Lemma mem_get_ok f : forall pos t g key r, rd_tree b f pos = Got t -> find_loop kcmp g t key = Ok r ->
    mem_get kcmp b f pos key = Got (match r with Found t' => t_value t' | _ => None end).
  Proof.
    induction f as [|f IH]; intros pos t g key r H F; [discriminate|].
    destruct (tree_words _ _ _ _ H) as (f' & pp & pn & pre & tag & v & kp & kn & kids & Q & E1 & E2 & E3 & E4 & E5 & E6 & E7 & E8 & ->).
    injection Q as <-. destruct g as [|g]; [discriminate|]. cbn [find_loop t_prefix t_children] in F.
    cbn [mem_get]. rewrite E1. cbn [mbind]. rewrite E2. cbn [mbind]. rewrite E3. cbn [mbind].
    destruct ((length key - common_prefix kcmp pre key =? 0) && (length pre - common_prefix kcmp pre key =? 0)).
    { injection F as <-. rewrite E4. cbn [mbind]. rewrite E5. reflexivity. }
    destruct (length key - common_prefix kcmp pre key =? 0). { now injection F as <-. }
    destruct (length pre - common_prefix kcmp pre key =? 0). 2:{ now injection F as <-. }
    destruct (nth_error key (common_prefix kcmp pre key)) as [c|]; [|discriminate].
    rewrite E6. cbn [mbind]. rewrite E7. cbn [mbind].
    destruct (rd_elems_nth _ _ _ _ _ E8) as [LK NK].
    rewrite (bsearch_rel (kid_cmp kcmp b c) (fun e => match t_prefix e with h :: _ => Some (kcmp h c) | [] => None end) _ kids).
    - destruct (bsearch _ kids) as [i|i| |]; try discriminate; [|now injection F as <-].
      destruct (nth_error kids i) as [child|] eqn:EC; [|discriminate].
      assert (Hi : i < kn). { rewrite <- LK. apply nth_error_Some. congruence. }
      destruct (NK i Hi) as (t2 & N1 & N2). rewrite EC in N1. injection N1 as <-. eapply IH; eauto.
    - now rewrite map_length, seq_length.
    - intros i x y Hx Hy. assert (Hi : i < kn). { rewrite <- LK. apply nth_error_Some. congruence. }
      rewrite nth_error_map in Hx. rewrite (nth_error_nth' _ 0) in Hx by (now rewrite seq_length). rewrite seq_nth in Hx by auto.
      cbn [option_map] in Hx. change (0 + i) with i in Hx. apply (f_equal (fun o => match o with Some z => z | None => 0 end)) in Hx. cbv beta iota in Hx. subst x. destruct (NK i Hi) as (t2 & N1 & N2). rewrite Hy in N1. injection N1 as <-.
      unfold kid_cmp. rewrite (tree_len _ _ _ _ N2). destruct (t_prefix y) as [|h p] eqn:P; [reflexivity|]. cbn [length].
      now rewrite (tree_head _ _ _ _ _ _ N2 P).
  Qed.
End Lookup.

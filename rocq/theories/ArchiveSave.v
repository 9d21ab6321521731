(** What serialization writes is read back unchanged and accepted exactly when it is well ordered. *)
From Verif Require Export ArchiveTree.

Definition prefix_of (b B : buf) : Prop := exists s, B = b ++ s.
(** the words [w] are stored at [pos] of [B] *)
Definition stored (B : buf) (pos : nat) (w : list nat) : Prop := forall j, j < length w -> nth_error B (pos + j) = nth_error w j.

Lemma prefix_refl b : prefix_of b b.
Proof. exists []. now rewrite app_nil_r. Qed.
Lemma prefix_trans a b c : prefix_of a b -> prefix_of b c -> prefix_of a c.
Proof. intros [s ->] [s' ->]. exists (s ++ s'). now rewrite app_assoc. Qed.
Lemma prefix_app a s B : prefix_of (a ++ s) B -> prefix_of a B.
Proof. intros [s' ->]. exists (s ++ s'). now rewrite app_assoc. Qed.
Lemma prefix_len a B : prefix_of a B -> length a <= length B.
Proof. intros [s ->]. rewrite app_length. lia. Qed.
Lemma stored_here b w B : prefix_of (b ++ w) B -> stored B (length b) w.
Proof.
  intros [s ->] j Hj. rewrite <- app_assoc. rewrite nth_error_app2 by lia.
  replace (length b + j - length b) with j by lia. now rewrite nth_error_app1.
Qed.
Lemma stored_rd B pos w j x : stored B pos w -> nth_error w j = Some x -> rd B (pos + j) = Got x.
Proof. intros S E. apply rd_got. rewrite S; auto. apply nth_error_Some. congruence. Qed.
Lemma stored_tail B pos x w : stored B pos (x :: w) -> stored B (S pos) w.
Proof. intros S j Hj. specialize (S (Datatypes.S j)). cbn in S. replace (Datatypes.S pos + j) with (pos + Datatypes.S j) by lia. apply S. lia. Qed.
Lemma stored_app B pos w w' : stored B pos (w ++ w') -> stored B pos w /\ stored B (pos + length w) w'.
Proof.
  intros S. split; intros j Hj.
  - rewrite S by (rewrite app_length; lia). now rewrite nth_error_app1.
  - replace (pos + length w + j) with (pos + (length w + j)) by lia. rewrite S by (rewrite app_length; lia).
    rewrite nth_error_app2 by lia. f_equal. lia.
Qed.
Lemma stored_slice B w : forall pos, stored B pos w -> rd_slice B pos (length w) = Got w.
Proof.
  induction w as [|x w IH]; intros pos S; [reflexivity|]. cbn [length rd_slice].
  pose proof (stored_rd B pos (x :: w) 0 x S eq_refl) as E. replace (pos + 0) with pos in E by lia. rewrite E. cbn [mbind].
  rewrite (IH (Datatypes.S pos)) by (eapply stored_tail; eauto). reflexivity.
Qed.
(** checking stored words *)
Lemma check_words B w lo hi : forall pos, stored B pos w -> check_elems (check_word B) 1 pos (length w) lo hi = Got lo.
Proof.
  induction w as [|x w IH]; intros pos S; [reflexivity|]. cbn [length check_elems]. unfold check_word at 1.
  pose proof (stored_rd B pos (x :: w) 0 x S eq_refl) as E. replace (pos + 0) with pos in E by lia. rewrite E. cbn [mbind].
  replace (pos + 1) with (Datatypes.S pos) by lia. apply IH. eapply stored_tail; eauto.
Qed.
Lemma check_str B pos lo hi p w : rd B pos = Got p -> rd B (S pos) = Got (length w) -> stored B p w -> lo <= p -> p + length w <= hi ->
  check_vec B (check_word B) 1 pos lo hi = Got (p + length w).
Proof.
  intros E1 E2 S1 H1 H2. unfold check_vec. rewrite E1. cbn [mbind]. rewrite E2. cbn [mbind].
  rewrite (proj2 (in_range_ok lo hi p (1 * length w))) by lia. rewrite (check_words B w lo p) by auto. cbn [mbind]. f_equal. lia.
Qed.

(** ** Writing a list of things: [acc x] says whether the validator accepts the written thing *)
Section SerList.
  Context {X : Type} (ser : buf -> X -> buf * list nat) (sz : nat) (acc : X -> bool).
  Context (ext : forall b x b' w, ser b x = (b', w) -> prefix_of b b' /\ length w = sz).
  Lemma ser_list_ext : forall xs b b' ws, ser_list ser b xs = (b', ws) -> prefix_of b b' /\ length ws = length xs /\ length (concat ws) = sz * length xs.
  Proof.
    induction xs as [|x xs IH]; intros b b' ws H; cbn [ser_list] in H.
    - injection H as <- <-. split; [apply prefix_refl|]. cbn. split; lia.
    - destruct (ser b x) as [b1 w] eqn:E. change ((fix go (b : buf) (xs : list X) := match xs with [] => (b, []) | x :: xs' => let (b1, w) := ser b x in let (b2, ws) := go b1 xs' in (b2, w :: ws) end) b1 xs) with (ser_list ser b1 xs) in H.
      destruct (ser_list ser b1 xs) as [b2 ws2] eqn:E2. injection H as <- <-. destruct (ext _ _ _ _ E) as [P L]. destruct (IH _ _ _ E2) as (P2 & L2 & L3).
      split; [eapply prefix_trans; eauto|]. cbn [length concat]. rewrite app_length, L, L2, L3. split; lia.
  Qed.
  (** in the memory [B], the validator [elem] treats a thing written after [b], with words stored at [pos], as [acc] says *)
  Context (B : buf) (elem : nat -> nat -> nat -> mout nat) (rdx : nat -> mout X) (f : nat).
  Definition good (x : X) : Prop := forall b b' w pos lo hi, ser b x = (b', w) -> prefix_of b' B -> stored B pos w ->
    lo <= length b -> length b' <= hi -> length b' < f ->
    rdx pos = Got x /\ elem pos lo hi = if acc x then Got (length b') else Reject.
  Lemma ser_list_good : forall xs b b' ws pos lo hi, Forall good xs -> ser_list ser b xs = (b', ws) -> prefix_of b' B -> stored B pos (concat ws) ->
    lo <= length b -> length b' <= hi -> length b' < f ->
    rd_elems rdx sz pos (length xs) = Got xs /\
    (if forallb acc xs then exists l, check_elems elem sz pos (length xs) lo hi = Got l else check_elems elem sz pos (length xs) lo hi = Reject).
  Proof.
    induction xs as [|x xs IH]; intros b b' ws pos lo hi G H P S1 H1 H2 H3; cbn [ser_list] in H.
    - injection H as <- <-. split; [reflexivity|]. now exists lo.
    - destruct (ser b x) as [b1 w] eqn:E. change ((fix go (b : buf) (xs : list X) := match xs with [] => (b, []) | x :: xs' => let (b1, w) := ser b x in let (b2, ws) := go b1 xs' in (b2, w :: ws) end) b1 xs) with (ser_list ser b1 xs) in H.
      destruct (ser_list ser b1 xs) as [b2 ws2] eqn:E2. injection H as <- <-. destruct (ext _ _ _ _ E) as [Pb L].
      destruct (ser_list_ext _ _ _ _ E2) as (P2 & _ & _). pose proof (prefix_len _ _ P2).
      cbn [concat] in S1. apply stored_app in S1 as [S1 S2]. rewrite L in S2.
      inversion G as [|x' xs' G1 G2]; subst x' xs'.
      destruct (G1 b b1 w pos lo hi E (prefix_trans _ _ _ P2 P) S1 H1 ltac:(lia) ltac:(lia)) as [R C].
      cbn [length rd_elems check_elems forallb]. rewrite R, C. cbn [mbind].
      destruct (IH b1 b2 ws2 (pos + sz) (length b1) hi G2 E2 P S2 ltac:(lia) H2 H3) as [R2 C2]. rewrite R2. cbn [mbind]. split; [reflexivity|].
      destruct (acc x); cbn [mbind andb]; [exact C2|reflexivity].
  Qed.
End SerList.

(** ** Trees *)
Lemma ser_tree_node b pre v kids : ser_tree b (Node pre v kids) =
  let (b2, ws) := ser_list ser_tree (b ++ pre) kids in
  (b2 ++ concat ws, [length b; length pre; match v with Some _ => 1 | None => 0 end; match v with Some x => x | None => 0 end; length b2; length kids]).
Proof. reflexivity. Qed.
Lemma ser_tree_ext t : forall b b' w, ser_tree b t = (b', w) -> prefix_of b b' /\ length w = nw.
Proof.
  induction t as [pre v kids IH] using rtree_ind'. intros b b' w H. rewrite ser_tree_node in H.
  destruct (ser_list ser_tree (b ++ pre) kids) as [b2 ws] eqn:E. injection H as <- <-. split; [|reflexivity].
  assert (P : prefix_of (b ++ pre) b2).
  { clear - IH E. revert E. generalize (b ++ pre) as c. revert b2 ws. induction kids as [|k kids IHk]; intros b2 ws c E; cbn [ser_list] in E.
    - injection E as <- <-. apply prefix_refl.
    - destruct (ser_tree c k) as [b1 w] eqn:E1. change ((fix go (b : buf) (xs : list (rtree nat nat)) := match xs with [] => (b, []) | x :: xs' => let (b1, w) := ser_tree b x in let (b2, ws) := go b1 xs' in (b2, w :: ws) end) b1 kids) with (ser_list ser_tree b1 kids) in E.
      destruct (ser_list ser_tree b1 kids) as [b3 ws3] eqn:E2. injection E as <- <-. inversion IH as [|k' ks' I1 I2]; subst.
      apply prefix_trans with b1; [apply (I1 _ _ _ E1)|]. apply (IHk I2 _ _ _ E2). }
  apply prefix_app in P. apply prefix_trans with b2; auto. now exists (concat ws).
Qed.

Lemma tree_good (kcmp : nat -> nat -> comparison) (B : buf) (t : rtree nat nat) :
  forall f, good ser_tree (rt_check kcmp) B (node_check kcmp B f) (rd_tree B f) f t.
Proof.
  induction t as [pre v kids IH] using rtree_ind'. intros f b b' w pos lo hi H P S1 H1 H2 H3. rewrite ser_tree_node in H.
  destruct (ser_list ser_tree (b ++ pre) kids) as [b2 ws] eqn:E. injection H as <- <-.
  destruct f as [|f]; [lia|]. destruct (ser_list_ext ser_tree nw (fun b x b' w => ser_tree_ext x b b' w) _ _ _ _ E) as (P2 & _ & LC).
  rewrite app_length, LC in H2, H3. pose proof (prefix_len _ _ P2) as L2. rewrite app_length in L2.
  assert (SP : stored B (length b) pre). { apply stored_here. eapply prefix_trans; [exact P2|]. eapply prefix_app; exact P. }
  assert (SK : stored B (length b2) (concat ws)) by (now apply stored_here).
  assert (W : forall j x, nth_error [length b; length pre; match v with Some _ => 1 | None => 0 end; match v with Some x => x | None => 0 end; length b2; length kids] j = Some x -> rd B (pos + j) = Got x).
  { intros j x Q. eapply stored_rd; eauto. }
  pose proof (W 0 _ eq_refl) as W0. replace (pos + 0) with pos in W0 by lia.
  pose proof (W 1 _ eq_refl) as W1. pose proof (W 2 _ eq_refl) as W2. pose proof (W 3 _ eq_refl) as W3. pose proof (W 4 _ eq_refl) as W4. pose proof (W 5 _ eq_refl) as W5.
  assert (KIDS : length kids = 0 \/ length b2 < f). { destruct kids; [now left|right]. cbn [length] in H3. unfold nw in H3. lia. }
  assert (RC : rd_elems (rd_tree B f) nw (length b2) (length kids) = Got kids /\
    (if forallb (rt_check kcmp) kids then exists l, check_elems (node_check kcmp B f) nw (length b2) (length kids) (length (b ++ pre)) (length b2) = Got l
     else check_elems (node_check kcmp B f) nw (length b2) (length kids) (length (b ++ pre)) (length b2) = Reject)).
  { destruct KIDS as [K|K].
    - destruct kids; [|discriminate]. split; [reflexivity|]. cbn. now exists (length (b ++ pre)).
    - eapply (ser_list_good ser_tree nw (rt_check kcmp) (fun b x b' w => ser_tree_ext x b b' w) B (node_check kcmp B f) (rd_tree B f) f); eauto.
      + apply Forall_forall. intros k Hk. rewrite Forall_forall in IH. now apply IH.
      + eapply prefix_app; exact P. }
  destruct RC as [RK CK].
  assert (TG : (1 <? match v with Some _ => 1 | None => 0 end) = false) by (now destruct v).
  split.
  - cbn [rd_tree]. rewrite W0. cbn [mbind]. rewrite W1. cbn [mbind]. rewrite (stored_slice B pre _ SP). cbn [mbind].
    rewrite W2. cbn [mbind]. rewrite W3. cbn [mbind]. rewrite W4. cbn [mbind]. rewrite W5. cbn [mbind]. rewrite RK. cbn [mbind]. now destruct v.
  - cbn [node_check]. rewrite (check_str B pos lo hi (length b) pre); auto; [|now replace (S pos) with (pos + 1) by lia|lia]. cbn [mbind].
    rewrite W2. cbn [mbind]. rewrite TG. rewrite W3. cbn [mbind]. rewrite W4. cbn [mbind]. rewrite W5. cbn [mbind].
    rewrite (nonempty_ok _ _ _ _ _ RK). cbn [mbind rt_check]. destruct (forallb has_head kids) eqn:HH; cbn [negb andb]; [|reflexivity].
    rewrite (heads_ok _ _ _ _ _ _ RK HH). cbn [mbind]. destruct (adjacent_lt kcmp kids); cbn [negb andb]; [|reflexivity].
    unfold check_vec. rewrite W4. cbn [mbind]. replace (S (pos + 4)) with (pos + 5) by lia. rewrite W5. cbn [mbind].
    rewrite (proj2 (in_range_ok (length b + length pre) hi (length b2) (nw * length kids))) by lia.
    rewrite app_length, LC.
    rewrite app_length in CK. destruct (forallb (rt_check kcmp) kids).
    + destruct CK as [l CK]. rewrite CK. reflexivity.
    + rewrite CK. reflexivity.
Qed.

Lemma tree_save_ok kcmp t :
  let B := tree_save t in
  tree_validate kcmp B = (if rt_check kcmp t then Got (length B - nw) else Reject) /\ tree_read B (length B - nw) = Got t.
Proof.
  cbv zeta. unfold tree_validate, tree_read, check_root, tree_save. destruct (ser_tree [] t) as [b w] eqn:E.
  destruct (ser_tree_ext _ _ _ _ E) as [_ L].
  rewrite app_length, L. replace (length b + nw - nw) with (length b) by lia. rewrite (proj2 (Nat.leb_le nw (length b + nw))) by lia.
  destruct (tree_good kcmp (b ++ w) t (S (length b + nw)) [] b w (length b) 0 (length b) E) as [R C]; cbn [length]; try lia.
  - now exists w.
  - apply stored_here. apply prefix_refl.
  - rewrite R, C. split; [|reflexivity]. destruct (rt_check kcmp t); reflexivity.
Qed.

(** ** Collections of strings *)
Lemma lex_laws {K} {kcmp : K -> K -> comparison} (L : OrdLaws kcmp) : OrdLaws (lex kcmp).
Proof.
  split.
  - intros x. induction x as [|a x IH]; intros [|c y]; try reflexivity. cbn [lex]. rewrite (ord_opp L a c), (IH y).
    now destruct (kcmp a c).
  - intros x. induction x as [|a x IH]; intros [|c y] [|d z]; cbn [lex]; try congruence.
    destruct (kcmp a c) eqn:E1; destruct (kcmp c d) eqn:E2; try congruence; intros H1 H2.
    + rewrite (cmp_eq_trans L _ _ _ E1 E2). eauto.
    + rewrite (cmp_eq_l L _ _ d E1), E2. congruence.
    + rewrite <- (cmp_eq_r L _ _ a E2), E1. congruence.
    + rewrite (cmp_lt_trans L _ _ _ E1 E2). congruence.
Qed.

Lemma ser_string_ext b s b' w : ser_string b s = (b', w) -> prefix_of b b' /\ length w = 2.
Proof. unfold ser_string. intros H. injection H as <- <-. split; [now exists s|reflexivity]. Qed.
Lemma ser_entry_ext b (e : list nat * nat) b' w : ser_entry b e = (b', w) -> prefix_of b b' /\ length w = 3.
Proof. unfold ser_entry. intros H. injection H as <- <-. split; [now exists (fst e)|reflexivity]. Qed.
Lemma string_stored B pos p s lo hi : rd B pos = Got p -> rd B (pos + 1) = Got (length s) -> stored B p s -> lo <= p -> p + length s <= hi ->
  rd_string B pos = Got s /\ check_string B pos lo hi = Got (p + length s).
Proof.
  intros E1 E2 S1 H1 H2. replace (pos + 1) with (S pos) in E2 by lia. split.
  - unfold rd_string. rewrite E1. cbn [mbind]. rewrite E2. cbn [mbind]. now apply stored_slice.
  - now apply check_str.
Qed.
Lemma string_good B f s : good ser_string (fun _ => true) B (check_string B) (rd_string B) f s.
Proof.
  intros b b' w pos lo hi H P S1 H1 H2 _. unfold ser_string in H. injection H as <- <-.
  pose proof (stored_rd B pos _ 0 _ S1 eq_refl) as W0. pose proof (stored_rd B pos _ 1 _ S1 eq_refl) as W1. replace (pos + 0) with pos in W0 by lia.
  pose proof (stored_here _ _ _ P) as SP. rewrite app_length in *. now apply string_stored.
Qed.
Lemma entry_good B f e : good ser_entry (fun _ => true) B (check_entry B) (rd_entry B) f e.
Proof.
  intros b b' w pos lo hi H P S1 H1 H2 _. unfold ser_entry in H. injection H as <- <-. destruct e as [k v]. cbn [fst snd] in *.
  pose proof (stored_rd B pos _ 0 _ S1 eq_refl) as W0. pose proof (stored_rd B pos _ 1 _ S1 eq_refl) as W1. pose proof (stored_rd B pos _ 2 _ S1 eq_refl) as W2.
  replace (pos + 0) with pos in W0 by lia.
  pose proof (stored_here _ _ _ P) as SP. rewrite app_length in *. destruct (string_stored B pos _ k lo hi W0 W1 SP H1 H2) as [R C].
  unfold rd_entry, check_entry. rewrite R, C. cbn [mbind]. rewrite W2. split; reflexivity.
Qed.

(** a saved vector of things that start with a string: the root words are the pointer and the length *)
Lemma coll_save {X} (kcmp : nat -> nat -> comparison) (ser : buf -> X -> buf * list nat) sz (elem : buf -> nat -> nat -> nat -> mout nat) (rdx : buf -> nat -> mout X) (key : X -> list nat) (xs : list X) b ws :
  (forall b x b' w, ser b x = (b', w) -> prefix_of b b' /\ length w = sz) ->
  (forall B f x, good ser (fun _ => true) B (elem B) (rdx B) f x) ->
  (forall B p x, rdx B p = Got x -> rd_string B p = Got (key x)) ->
  ser_list ser [] xs = (b, ws) ->
  let B := b ++ concat ws ++ [length b; length xs] in
  length B - 2 = length (b ++ concat ws) /\
  rd B (length B - 2) = Got (length b) /\ rd B (S (length B - 2)) = Got (length xs) /\
  rd_elems (rdx B) sz (length b) (length xs) = Got xs /\
  check_root B 2 (gen_check kcmp B (elem B) sz) = if vset_check_order (lex kcmp) (map key xs) then Got (length B - 2) else Reject.
Proof.
  intros X1 X2 X3 E B. destruct (ser_list_ext ser sz X1 _ _ _ _ E) as (_ & _ & LC).
  assert (LB : length B = length b + sz * length xs + 2). { unfold B. rewrite !app_length, LC. cbn [length]. lia. }
  assert (SR : stored B (length (b ++ concat ws)) [length b; length xs]). { apply stored_here. unfold B. rewrite app_assoc. apply prefix_refl. }
  assert (SK : stored B (length b) (concat ws)). { apply stored_here. unfold B. exists [length b; length xs]. now rewrite app_assoc. }
  assert (R1 : length B - 2 = length (b ++ concat ws)). { rewrite app_length, LC. lia. }
  pose proof (stored_rd B _ _ 0 _ SR eq_refl) as W0. pose proof (stored_rd B _ _ 1 _ SR eq_refl) as W1. rewrite <- R1 in W0, W1.
  replace (length B - 2 + 0) with (length B - 2) in W0 by lia. replace (length B - 2 + 1) with (S (length B - 2)) in W1 by lia.
  assert (SZ : length b + sz * length xs <= length B - 2) by lia.
  destruct (ser_list_good ser sz (fun _ => true) X1 B (elem B) (rdx B) (S (length b)) xs [] b ws (length b) 0 (length b)) as [R C]; auto; cbn [length]; try lia.
  { apply Forall_forall. intros x _. apply X2. } { exists (concat ws ++ [length b; length xs]). reflexivity. }
  split; [exact R1|]. split; [exact W0|]. split; [exact W1|]. split; [exact R|].
  unfold check_root. rewrite (proj2 (Nat.leb_le 2 (length B))) by lia.
  assert (C' : exists l, check_elems (elem B) sz (length b) (length xs) 0 (length b) = Got l).
  { rewrite (proj2 (forallb_forall (fun _ => true) xs)) in C by auto. exact C. }
  destruct C' as [l C']. unfold gen_check at 1, check_vec. rewrite W0. cbn [mbind]. rewrite W1. cbn [mbind].
  rewrite (proj2 (in_range_ok 0 (length B - 2) (length b) (sz * length xs))) by lia. rewrite C'. cbn [mbind].
  assert (RS : rd_elems (rd_string B) sz (length b) (length xs) = Got (map key xs)). { eapply rd_elems_map; [|exact R]. intros q y. apply X3. }
  destruct (all_lt_ok kcmp B sz _ _ _ RS) as (r & Q & ->). rewrite Q. cbn [mbind]. now destruct (vset_check_order (lex kcmp) (map key xs)).
Qed.

Lemma node_intact kcmp b f : forall f' pos lo hi t, rd_tree b f' pos = Got t -> hi <= length b -> node_check kcmp b f pos lo hi <> Ub.
Proof.
  induction f as [|f IH]; intros f' pos lo hi t H Hb; [discriminate|].
  destruct (tree_words _ _ _ _ H) as (f2 & pp & pn & pre & tag & v & kp & kn & kids & -> & E1 & E2 & E3 & E4 & E5 & E6 & E7 & E8 & ->).
  cbn [node_check]. replace (pos + 1) with (S pos) in E2 by lia.
  assert (S1 : safe (check_vec b (check_word b) 1 pos lo hi) lo hi).
  { apply check_words_safe; auto. apply rd_got in E2. apply nth_error_Some. congruence. }
  destruct (check_vec b (check_word b) 1 pos lo hi) as [| | |lo1]; cbn [mbind safe] in *; try easy.
  rewrite E4. cbn [mbind]. destruct (1 <? tag); [easy|]. rewrite E5. cbn [mbind]. rewrite E6. cbn [mbind]. rewrite E7. cbn [mbind].
  rewrite (nonempty_ok _ _ _ _ _ E8). cbn [mbind]. destruct (forallb has_head kids) eqn:HH; cbn [negb]; [|easy].
  rewrite (heads_ok _ _ _ _ _ _ E8 HH). cbn [mbind]. destruct (adjacent_lt kcmp kids); cbn [negb]; [|easy].
  unfold check_vec. rewrite E6. cbn [mbind]. replace (S (pos + 4)) with (pos + 5) by lia. rewrite E7. cbn [mbind].
  destruct (in_range lo1 hi kp (nw * kn)) eqn:R; [|easy]. apply in_range_ok in R.
  destruct (rd_elems_nth _ _ _ _ _ E8) as [_ NK].
  assert (C : forall n q lo', (forall i, i < n -> exists x, rd_tree b f2 (q + nw * i) = Got x) -> check_elems (node_check kcmp b f) nw q n lo' kp <> Ub).
  { induction n as [|n IHn]; intros q lo' Q; cbn [check_elems]; [easy|].
    destruct (Q 0) as [x Qx]; [lia|]. replace (q + nw * 0) with q in Qx by lia.
    pose proof (IH f2 q lo' kp x Qx ltac:(lia)) as D. destruct (node_check kcmp b f q lo' kp); cbn [mbind]; try easy.
    apply IHn. intros i Hi. destruct (Q (S i)) as [y Qy]; [lia|]. exists y. now replace (q + nw + nw * i) with (q + nw * S i) by lia. }
  specialize (C kn kp lo1). destruct (check_elems (node_check kcmp b f) nw kp kn lo1 kp); cbn [mbind]; try easy.
  exfalso. apply C; auto. intros i Hi. destruct (NK i Hi) as (x & _ & Q). now exists x.
Qed.

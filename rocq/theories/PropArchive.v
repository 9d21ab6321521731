(** Properties C83, C84: archives as memory. [Ub] is an access outside the archive, [Reject] an error
    returned by the validator, [Got root] acceptance with the position of the root.
    [kcmp] is the order on key components. *)
From Verif Require Import ArchiveSave PropRadix.

Section Props.
  Context {kcmp : nat -> nat -> comparison} (L : OrdLaws kcmp) (E : OrdEq kcmp).

  Lemma root_safe b rsz chk : (forall root, root + rsz = length b -> safe (chk root 0 root) 0 root) ->
    check_root b rsz chk <> Ub /\ check_root b rsz chk <> TooDeep.
  Proof.
    intros H. unfold check_root. destruct (rsz <=? length b) eqn:R; [|easy]. apply Nat.leb_le in R.
    specialize (H (length b - rsz) ltac:(lia)). now destruct (chk (length b - rsz) 0 (length b - rsz)); cbn in *.
  Qed.
  Lemma root_got b rsz chk root : check_root b rsz chk = Got root -> root + rsz = length b /\ exists l, chk root 0 root = Got l.
  Proof.
    unfold check_root. destruct (rsz <=? length b) eqn:R; [|easy]. apply Nat.leb_le in R. intros H.
    apply mbind_got in H as (l & Q & H). injection H as <-. split; [lia|eauto].
  Qed.

  (** ** C83: validating arbitrary bytes reads nothing outside them and ends *)
  Theorem C83_set_validate_safe (b : buf) : set_validate kcmp b <> Ub /\ set_validate kcmp b <> TooDeep.
  Proof.
    apply root_safe. intros root H. apply (gen_safe kcmp b (check_string b) 2); try lia.
    - intros p lo hi. intros. apply string_safe; lia.
    - intros p lo hi l. apply string_read.
  Qed.
  Theorem C83_map_validate_safe (b : buf) : map_validate kcmp b <> Ub /\ map_validate kcmp b <> TooDeep.
  Proof.
    apply root_safe. intros root H. apply (gen_safe kcmp b (check_entry b) 3); try lia.
    - intros p lo hi. intros. apply entry_safe; lia.
    - intros p lo hi l Q. apply entry_string in Q as [Q _]. revert Q. apply string_read.
  Qed.
  (** the part that holds for radix trees: validation ends, and stays inside an archive whose pointers
      all lie inside (from which a tree can be read), whatever the order of its children.
      Missing: archives with wild pointers, refuted below. *)
  Theorem C83_tree_validate_partial (b : buf) :
    tree_validate kcmp b <> TooDeep /\
    ((exists t, tree_read b (length b - nw) = Got t) -> tree_validate kcmp b <> Ub).
  Proof.
    unfold tree_validate, check_root. destruct (nw <=? length b) eqn:R; [|easy]. apply Nat.leb_le in R. split.
    - pose proof (node_deep kcmp b (S (length b)) (length b - nw) 0 (length b - nw) ltac:(lia)) as D.
      now destruct (node_check kcmp b (S (length b)) (length b - nw) 0 (length b - nw)).
    - intros [t H]. pose proof (node_intact kcmp b (S (length b)) _ _ 0 (length b - nw) _ H ltac:(lia)) as D.
      now destruct (node_check kcmp b (S (length b)) (length b - nw) 0 (length b - nw)).
  Qed.

  (** ** C84: what is accepted is sound, what is written is accepted *)
  Theorem C84_accepted_set (b : buf) root : set_validate kcmp b = Got root ->
    exists s, rd_set b root = Got s /\ sorted (lex kcmp) s.
  Proof.
    intros H. apply root_got in H as (R & l & H). fold (gen_check kcmp b (check_string b) 2 root 0 root) in H.
    destruct (gen_accept kcmp b (check_string b) 2) with (4 := H) as (p & n & ks & E1 & E2 & E3 & O & _); try lia.
    - intros p lo hi. intros. apply string_safe; lia.
    - intros p lo hi l'. apply string_read.
    - exists ks. unfold rd_set. rewrite E1. cbn [mbind]. rewrite E2. cbn [mbind]. split; auto. now apply (check_order_spec (lex_laws L)).
  Qed.
  Theorem C84_accepted_map (b : buf) root : map_validate kcmp b = Got root ->
    exists m, rd_map b root = Got m /\ keys_sorted (lex kcmp) m.
  Proof.
    intros H. apply root_got in H as (R & l & H). fold (gen_check kcmp b (check_entry b) 3 root 0 root) in H.
    destruct (gen_accept kcmp b (check_entry b) 3) with (4 := H) as (p & n & ks & E1 & E2 & E3 & O & Q); try lia.
    - intros p lo hi. intros. apply entry_safe; lia.
    - intros p lo hi l' Q. apply entry_string in Q as [Q _]. revert Q. apply string_read.
    - destruct (rd_elems_in (rd_entry b) 3 n p) as (m & RM & _).
      { intros i Hi. destruct (Q i Hi) as (lo' & l' & _ & Hp & C). apply entry_string in C as [C [v V]].
        destruct (string_read b _ _ _ _ C Hp) as [s S]. unfold rd_entry. rewrite S. cbn [mbind]. rewrite V. cbn [mbind]. eauto. }
      exists m. unfold rd_map. rewrite E1. cbn [mbind]. rewrite E2. cbn [mbind]. split; auto.
      assert (K : rd_elems (rd_string b) 3 p n = Got (map fst m)).
      { apply rd_elems_map with (g := rd_entry b); auto. intros q y Hy. unfold rd_entry in Hy. apply mbind_got in Hy as (k & Hk & Hy).
        apply mbind_got in Hy as (v & _ & Hy). now injection Hy as <-. }
      rewrite E3 in K. injection K as ->. unfold keys_sorted. now apply (check_order_spec (lex_laws L)).
  Qed.
  (** an accepted radix tree is finite, lies inside the archive, is well ordered, and looking up any key
      in place stays inside the archive and finds exactly what the tree holds *)
  Theorem C84_accepted_tree (b : buf) root : tree_validate kcmp b = Got root ->
    exists t, tree_read b root = Got t /\ WO kcmp t /\
      forall key, exists o, mem_get kcmp b (S (length b)) root key = Got o /\ holds t key o.
  Proof.
    intros H. apply root_got in H as (R & l & H). destruct (node_sound kcmp b (S (length b)) root 0 root l ltac:(lia) H) as (t & Q & C).
    apply (check_WO L) in C. exists t. split; [exact Q|]. split; auto. intros key.
    destruct (C44_get L E t key C) as (o & G & Ho). unfold rt_get in G. destruct (t_find kcmp t key) as [r| |] eqn:F; try discriminate.
    unfold rbind in G. injection G as <-. eexists. split; [|exact Ho]. apply (mem_get_ok kcmp b _ _ _ _ _ _ Q F).
  Qed.
  Theorem C84_saved_set (s : list (list nat)) :
    let b := set_save s in let root := length b - 2 in
    rd_set b root = Got s /\ (sorted (lex kcmp) s -> set_validate kcmp b = Got root) /\ (~ sorted (lex kcmp) s -> set_validate kcmp b = Reject).
  Proof.
    cbv zeta. unfold set_save. destruct (ser_list ser_string [] s) as [b ws] eqn:S.
    destruct (coll_save kcmp ser_string 2 check_string rd_string (fun x => x) s b ws ser_string_ext string_good (fun _ _ _ H => H) S) as (_ & W0 & W1 & R & V).
    split. { unfold rd_set. rewrite W0. cbn [mbind]. rewrite W1. cbn [mbind]. exact R. }
    rewrite map_id in V. pose proof (check_order_spec (lex_laws L) s) as O.
    change (set_validate kcmp (b ++ concat ws ++ [length b; length s])) with
      (check_root (b ++ concat ws ++ [length b; length s]) 2 (gen_check kcmp (b ++ concat ws ++ [length b; length s]) (check_string (b ++ concat ws ++ [length b; length s])) 2)).
    rewrite V. destruct (vset_check_order (lex kcmp) s); split; intros H; auto; exfalso; [apply H|]; [now apply O|].
    apply O in H. discriminate.
  Qed.
  Theorem C84_saved_map (m : list (list nat * nat)) :
    let b := map_save m in let root := length b - 2 in
    rd_map b root = Got m /\ (keys_sorted (lex kcmp) m -> map_validate kcmp b = Got root) /\ (~ keys_sorted (lex kcmp) m -> map_validate kcmp b = Reject).
  Proof.
    cbv zeta. unfold map_save. destruct (ser_list ser_entry [] m) as [b ws] eqn:S.
    assert (X3 : forall B p x, rd_entry B p = Got x -> rd_string B p = Got (fst x)).
    { intros B p x H. unfold rd_entry in H. apply mbind_got in H as (k & Hk & H). apply mbind_got in H as (v & _ & H). now injection H as <-. }
    destruct (coll_save kcmp ser_entry 3 check_entry rd_entry fst m b ws ser_entry_ext entry_good X3 S) as (_ & W0 & W1 & R & V).
    split. { unfold rd_map. rewrite W0. cbn [mbind]. rewrite W1. cbn [mbind]. exact R. }
    pose proof (check_order_spec (lex_laws L) (map fst m)) as O. unfold keys_sorted.
    change (map_validate kcmp (b ++ concat ws ++ [length b; length m])) with
      (check_root (b ++ concat ws ++ [length b; length m]) 2 (gen_check kcmp (b ++ concat ws ++ [length b; length m]) (check_entry (b ++ concat ws ++ [length b; length m])) 3)).
    rewrite V. destruct (vset_check_order (lex kcmp) (map fst m)); split; intros H; auto; exfalso; [apply H|]; [now apply O|].
    apply O in H. discriminate.
  Qed.
  Theorem C84_saved_tree (t : rtree nat nat) :
    let b := tree_save t in let root := length b - nw in
    tree_read b root = Got t /\ (WO kcmp t -> tree_validate kcmp b = Got root) /\ (~ WO kcmp t -> tree_validate kcmp b = Reject).
  Proof.
    cbv zeta. destruct (tree_save_ok kcmp t) as [V R]. split; [exact R|]. rewrite V. rewrite <- (check_WO L).
    destruct (rt_check kcmp t); split; intros H; auto; [now exfalso; apply H|discriminate].
  Qed.
End Props.

(** validation of radix trees follows the children pointer, and the prefix pointers of the children,
    before checking them: a root whose children lie at position 100 of a 6 word archive, and a root with
    two children in place whose prefixes lie outside *)
Theorem C83_tree_validate_refuted : ~ (forall b : buf, tree_validate Nat.compare b <> Ub).
Proof. intros H. apply (H [0; 0; 0; 0; 100; 1]). reflexivity. Qed.
Example C83_wild_prefix :
  tree_validate Nat.compare [50; 1; 0; 0; 0; 0;  60; 1; 0; 0; 0; 0;  0; 0; 0; 0; 0; 2] = Ub.
Proof. reflexivity. Qed.

(** ** Witnesses *)
Definition wt : rtree nat nat := Node [1] None [Node [2; 3] (Some 7) [Node [5] (Some 9) []; Node [6] None [Node [1; 1] (Some 4) []]]; Node [4] (Some 8) []].
Example C84_tree_witness :
  tree_save wt = [1; 2; 3; 5; 6; 1; 1;  5; 2; 1; 4; 7; 0;  3; 1; 1; 9; 4; 0;  4; 1; 0; 0; 7; 1;  4;
                  1; 2; 1; 7; 13; 2;  25; 1; 1; 8; 26; 0;  0; 1; 0; 0; 26; 2] /\
  tree_validate Nat.compare (tree_save wt) = Got 38 /\
  mem_get Nat.compare (tree_save wt) 45 38 [1; 2; 3; 6; 1; 1] = Got (Some 4) /\
  mem_get Nat.compare (tree_save wt) 45 38 [1; 2; 3; 6] = Got None.
Proof. vm_compute. repeat split. Qed.
Example C84_tree_rejected : tree_validate Nat.compare (tree_save (Node [] None [Node [2] (Some 1) []; Node [2; 1] (Some 1) []])) = Reject.
Proof. reflexivity. Qed.
(** a pointer to memory that was already claimed is rejected *)
Example C84_tree_shared_rejected : tree_validate Nat.compare [3; 9;  0; 1; 1; 1; 0; 0;  0; 1; 0; 0; 2; 1] = Reject.
Proof. reflexivity. Qed.
Example C84_set_witness :
  set_validate Nat.compare (set_save [[1]; [1; 2]; [3; 0]]) = Got 11 /\ rd_set (set_save [[1]; [1; 2]; [3; 0]]) 11 = Got [[1]; [1; 2]; [3; 0]] /\
  set_validate Nat.compare (set_save [[1]; [3]; [1; 2]]) = Reject /\ set_validate Nat.compare [7; 1] = Reject.
Proof. vm_compute. repeat split. Qed.
Example C84_map_witness :
  map_validate Nat.compare (map_save [([1], 5); ([1; 2], 6)]) = Got 9 /\ rd_map (map_save [([1], 5); ([1; 2], 6)]) 9 = Got [([1], 5); ([1; 2], 6)] /\
  map_validate Nat.compare (map_save [([1], 5); ([1], 6)]) = Reject.
Proof. vm_compute. repeat split. Qed.
(** C83 (partial): a disordered but intact archive *)
Example C83_intact_witness : exists t, tree_read (tree_save (Node [] None [Node [2] (Some 1) []; Node [1] (Some 1) []])) (length (tree_save (Node [] None [Node [2] (Some 1) []; Node [1] (Some 1) []])) - nw) = Got t.
Proof. eexists. vm_compute. reflexivity. Qed.

Print Assumptions C83_set_validate_safe.
Print Assumptions C83_map_validate_safe.
Print Assumptions C83_tree_validate_partial.
Print Assumptions C83_tree_validate_refuted.
Print Assumptions C84_accepted_set.
Print Assumptions C84_accepted_map.
Print Assumptions C84_accepted_tree.
Print Assumptions C84_saved_set.
Print Assumptions C84_saved_map.
Print Assumptions C84_saved_tree.

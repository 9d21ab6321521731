(** The combinations and comparisons of two radix trees once more (as in RadixModel.v), counting the work:
    - how often two key components are compared: == in common_prefix, cmp in the merges of children
      (src/radix_tree/mod.rs:53-55 and the [cmp] of the merge operations, 1215-1217, 1243-1245, 1274-1276, 1306-1308,
      1350-1352, 1383-1385, 1427-1429, 1460-1462, 1504-1506, 1538-1540) and in sort_by_key (388, 1087);
    - how often a stored value is cloned: by materialize_shortened (642-652) and materialize (762-783), which copy a
      whole subtree, and where a node takes over the other tree's value (359, 380, 1050, 1051, 1064, 1075, 1171, 1192).
    Not counted: what the user's functions do, moving nodes, allocations, copies of key components (they are Copy). *)
From Verif Require Export RadixModel RadixCostModel OracleModel.

(** component comparisons, cloned values *)
Record work := Work { w_cmp : nat; w_copy : nat }.
Definition wk0 : work := Work 0 0.
Definition wadd (a b : work) : work := Work (w_cmp a + w_cmp b) (w_copy a + w_copy b).
Definition tally (X : Type) : Type := res X * work.
Definition tbind {X Y} (x : tally X) (f : X -> tally Y) : tally Y :=
  match fst x with
  | Ok a => (fst (f a), wadd (snd x) (snd (f a)))
  | Panicked => (Panicked, snd x)
  | OutOfFuel => (OutOfFuel, snd x)
  end.
Definition tret {X} (x : X) : tally X := (Ok x, wk0).
(** [w] and then [x] *)
Definition spend {X} (w : work) (x : tally X) : tally X := (fst x, wadd w (snd x)).
Definition tmap {X Y} (f : X -> Y) (x : tally X) : tally Y := (rmap f (fst x), snd x).

Section Work.
  Context {K : Type} (kcmp : K -> K -> comparison) (strat : nat -> nat -> bool).

  (** [value().cloned()] *)
  Definition cloned {V} (v : option V) : nat := match v with Some _ => 1 | None => 0 end.
  (** the values stored in a tree: not in the code *)
  Fixpoint t_vals {V} (t : rtree K V) : nat := let 'Node _ v c := t in cloned v + list_sum (map t_vals c).
  Definition vals {V} (l : list (rtree K V)) : nat := list_sum (map t_vals l).
  (** materialize_shortened mod.rs:642-652: clones every value (a failing assertion is counted as if it came last) *)
  Definition kmat_short {V} (t : rtree K V) (n : nat) : tally (rtree K V) := (mat_short t n, Work 0 (t_vals t)).
  (** [children.iter().map(materialize).collect()] mod.rs:1195-1199 *)
  Definition kmat_all {V} (l : list (rtree K V)) : tally (list (rtree K V)) := (mat_all l, Work 0 (vals l)).
  (** sort_by_key mod.rs:388, 1087 of two nodes (the list always has two): one comparison *)
  Definition ksort_heads {V} (l : list (rtree K V)) : tally (list (rtree K V)) := (sort_heads kcmp l, Work 1 0).
  (** [cmp] of the merge operations, counted *)
  Definition kcount {V W} (n : nat) (x : rtree K V) (y : rtree K W) : nat * option comparison :=
    (S n, head_cmp kcmp x y).

  (** the outcome of a merge whose state carries the work of the collision handlers, and its comparisons *)
  Definition collect_work {S X} (f : S -> X) (o : out (S * work) * nat) : tally X :=
    match o with
    | (Cont (s, w), n) | (Stop (s, w), n) => (Ok (f s), wadd (Work n 0) w)
    | (Panic (s, w), n) => (Panicked, wadd (Work n 0) w)
    | (NoFuel, n) => (OutOfFuel, Work n 0)
    end.
  Definition owork {S} (w : work) (o : out S) : out (S * work) :=
    match o with
    | Cont s => Cont (s, w)
    | Stop s => Stop (s, w)
    | Panic s => Panic (s, w)
    | NoFuel => NoFuel
    end.

  (** mod.rs:169-235, as [children_with]; [cb]: the converter copies the nodes taken from b *)
  Section InPlace.
    Context {V W : Type} (rec : rtree K V -> rtree K W -> tally (rtree K V)).
    Notation ist := (iprstate (rtree K V) (rtree K W)).
    Definition kcoll_with (conv : rtree K W -> option (rtree K V)) (s : ist * work) : out (ist * work) :=
      let (m, w) := s in
      match bd_src (ipr_a m), ipr_b m with
      | av :: a', bv :: _ =>
          let (r, w1) := rec av bv in
          match r with
          | Ok av' =>
              let bd := ipr_a m in
              let m' := MkIpr (MkB (bd_tgt bd) (av' :: a') (bd_drop bd)) (ipr_b m) in
              owork (wadd w w1)
                (obind (adv_a (ipr_msm conv) m' 1 (negb (t_is_empty av')))
                       (fun m'' => adv_b (ipr_msm conv) m'' 1 false))
          | Panicked => Panic (m, wadd w w1)
          | OutOfFuel => NoFuel
          end
      | _, _ => Panic (m, w)
      end.
    Definition kop_with (ta tb cb : bool) (conv : rtree K W -> option (rtree K V))
      : mop (ist * work) (rtree K V) (rtree K W) :=
      MkMop (fun s => bd_src (ipr_a (fst s))) (fun s => ipr_b (fst s)) (head_cmp kcmp)
            (fun s n => owork (snd s) (adv_a (ipr_msm conv) (fst s) n ta))
            (fun s n => owork (wadd (snd s) (Work 0 (if tb && cb then vals (firstn n (ipr_b (fst s))) else 0)))
                              (adv_b (ipr_msm conv) (fst s) n tb))
            (kcoll_with conv).
    Definition kchildren_with (ta tb cb : bool) (conv : rtree K W -> option (rtree K V))
               (a : list (rtree K V)) (b : list (rtree K W)) : tally (list (rtree K V)) :=
      collect_work (fun m => bd_tgt (ipr_a m)) (wmerge kcount (kop_with ta tb cb conv) strat (ipr_new a b, wk0) 0).
  End InPlace.

  (** VecMergeState::merge, as [children_pure]; [ca], [cb]: the converters copy *)
  Section Pure.
    Context {V W : Type} (rec : rtree K V -> rtree K W -> tally (rtree K V)).
    Notation vst := (vstate (rtree K V) (rtree K W) (rtree K V)).
    Definition kcoll_pure (s : vst * work) : out (vst * work) :=
      let (m, w) := s in
      match vs_a m, vs_b m with
      | a :: a', b :: b' =>
          let (r, w1) := rec a b in
          match r with
          | Ok r => Cont (MkVs a' b' (if t_is_empty r then vs_r m else vs_r m ++ [r]), wadd w w1)
          | Panicked => Panic (MkVs a' b' (vs_r m), wadd w w1)
          | OutOfFuel => NoFuel
          end
      | _, _ => Panic (m, w)
      end.
    Definition kop_pure (ta tb ca_copies cb_copies : bool)
      (ca : rtree K V -> option (rtree K V)) (cb : rtree K W -> option (rtree K V))
      : mop (vst * work) (rtree K V) (rtree K W) :=
      MkMop (fun s => vs_a (fst s)) (fun s => vs_b (fst s)) (head_cmp kcmp)
            (fun s n => owork (wadd (snd s) (Work 0 (if ta && ca_copies then vals (firstn n (vs_a (fst s))) else 0)))
                              (adv_a (vs_msm ca cb) (fst s) n ta))
            (fun s n => owork (wadd (snd s) (Work 0 (if tb && cb_copies then vals (firstn n (vs_b (fst s))) else 0)))
                              (adv_b (vs_msm ca cb) (fst s) n tb))
            kcoll_pure.
    Definition kchildren_pure (ta tb ca_copies cb_copies : bool) ca cb (a : list (rtree K V)) (b : list (rtree K W))
      : tally (list (rtree K V)) :=
      collect_work vs_r (wmerge kcount (kop_pure ta tb ca_copies cb_copies ca cb) strat (vs_new a b, wk0) 0).
  End Pure.

  (** outer_combine_with mod.rs:345-391, as [outer_with] *)
  Section OuterWith.
    Context {V : Type} (f : V -> V -> V * bool).
    (** [Some(w.clone())] mod.rs:359, 380 *)
    Definition clone_upd (v w : option V) : nat := match v, w with None, Some _ => 1 | _, _ => 0 end.
    Fixpoint kouter_with (fuel : nat) (self that : rtree K V) : tally (rtree K V) :=
      match fuel with
      | 0 => (OutOfFuel, wk0)
      | S fuel' =>
          let merge_children := kchildren_with (kouter_with fuel') true true true mat_conv in
          let (n, c) := common_prefix_count kcmp (t_prefix self) (t_prefix that) in
          let r :=
            if (n =? length (t_prefix self)) && (n =? length (t_prefix that)) then
              let v := upd_outer f (t_value self) (t_value that) in
              spend (Work 0 (clone_upd (t_value self) (t_value that)))
              (tbind (merge_children (t_children self) (t_children that)) (fun c =>
              tret (Node (t_prefix self) v c)))
            else if n =? length (t_prefix self) then
              tbind (kmat_short that n) (fun that =>
              tbind (merge_children (t_children self) [that]) (fun c =>
              tret (Node (t_prefix self) (t_value self) c)))
            else if n =? length (t_prefix that) then
              tbind (t_split self n, wk0) (fun self =>
              let v := upd_outer f (t_value self) (t_value that) in
              spend (Work 0 (clone_upd (t_value self) (t_value that)))
              (tbind (merge_children (t_children self) (t_children that)) (fun c =>
              tret (Node (t_prefix self) v c))))
            else
              tbind (t_split self n, wk0) (fun self =>
              tbind (kmat_short that n) (fun that =>
              tbind (ksort_heads (t_children self ++ [that])) (fun c =>
              tret (Node (t_prefix self) (t_value self) c)))) in
          spend (Work c 0) (tmap t_unsplit r)
      end.
    Definition krt_outer_combine_with (self that : rtree K V) : tally (rtree K V) :=
      kouter_with (S (t_size self + t_size that)) self that.
  End OuterWith.
  (** insert mod.rs:261-266 *)
  Definition krt_insert {V} (t : rtree K V) (key : list K) (value : V) : tally (rtree K V) :=
    krt_outer_combine_with (fun _ b => (b, true)) t (rt_single key value).

  (** inner_combine_with mod.rs:398-431, left_combine_with 440-468, as [inner_with], [left_with] *)
  Section InnerLeftWith.
    Context {V W : Type} (f : V -> W -> V * bool).
    Fixpoint kinner_with (fuel : nat) (self : rtree K V) (that : rtree K W) : tally (rtree K V) :=
      match fuel with
      | 0 => (OutOfFuel, wk0)
      | S fuel' =>
          let merge_children := kchildren_with (kinner_with fuel') false false false NoConverter in
          let (n, c) := common_prefix_count kcmp (t_prefix self) (t_prefix that) in
          let r :=
            if (n =? length (t_prefix self)) && (n =? length (t_prefix that)) then
              let v := upd_inner f (t_value self) (t_value that) in
              tbind (merge_children (t_children self) (t_children that)) (fun c =>
              tret (Node (t_prefix self) v c))
            else if n =? length (t_prefix self) then
              tbind (kmat_short that n) (fun that =>
              tbind (merge_children (t_children self) [that]) (fun c =>
              tret (Node (t_prefix self) None c)))
            else if n =? length (t_prefix that) then
              tbind (t_split self n, wk0) (fun self =>
              tbind (merge_children (t_children self) (t_children that)) (fun c =>
              tret (Node (t_prefix self) (t_value self) c)))
            else tret (Node (t_prefix self) None []) in
          spend (Work c 0) (tmap t_unsplit r)
      end.
    Definition krt_inner_combine_with (self : rtree K V) (that : rtree K W) : tally (rtree K V) :=
      kinner_with (S (t_size self + t_size that)) self that.
    Fixpoint kleft_with (fuel : nat) (self : rtree K V) (that : rtree K W) : tally (rtree K V) :=
      match fuel with
      | 0 => (OutOfFuel, wk0)
      | S fuel' =>
          let merge_children := kchildren_with (kleft_with fuel') true false false NoConverter in
          let (n, c) := common_prefix_count kcmp (t_prefix self) (t_prefix that) in
          let r :=
            if (n =? length (t_prefix self)) && (n =? length (t_prefix that)) then
              let v := upd_left f (t_value self) (t_value that) in
              tbind (merge_children (t_children self) (t_children that)) (fun c =>
              tret (Node (t_prefix self) v c))
            else if n =? length (t_prefix self) then
              tbind (kmat_short that n) (fun that =>
              tbind (merge_children (t_children self) [that]) (fun c =>
              tret (Node (t_prefix self) (t_value self) c)))
            else if n =? length (t_prefix that) then
              tbind (t_split self n, wk0) (fun self =>
              tbind (merge_children (t_children self) (t_children that)) (fun c =>
              tret (Node (t_prefix self) (t_value self) c)))
            else tret self in
          spend (Work c 0) (tmap t_unsplit r)
      end.
    Definition krt_left_combine_with (self : rtree K V) (that : rtree K W) : tally (rtree K V) :=
      kleft_with (S (t_size self + t_size that)) self that.
  End InnerLeftWith.

  (** remove_prefix_with mod.rs:474-511, retain_prefix_with 517-546, as [remove_with], [retain_with] *)
  Section PrefixWith.
    Context {V W : Type} (f : W -> bool).
    Fixpoint kremove_with (fuel : nat) (self : rtree K V) (that : rtree K W) : tally (rtree K V) :=
      match fuel with
      | 0 => (OutOfFuel, wk0)
      | S fuel' =>
          let merge_children := kchildren_with (kremove_with fuel') true false false NoConverter in
          let (n, c) := common_prefix_count kcmp (t_prefix self) (t_prefix that) in
          let r :=
            if (n =? length (t_prefix self)) && (n =? length (t_prefix that)) then
              if hit f (t_value that) then tret (Node (t_prefix self) None [])
              else tbind (merge_children (t_children self) (t_children that)) (fun c =>
                   tret (Node (t_prefix self) (t_value self) c))
            else if n =? length (t_prefix that) then
              if hit f (t_value that) then tret (Node (t_prefix self) None [])
              else tbind (t_split self n, wk0) (fun self =>
                   tbind (merge_children (t_children self) (t_children that)) (fun c =>
                   tret (Node (t_prefix self) (t_value self) c)))
            else if n =? length (t_prefix self) then
              tbind (kmat_short that n) (fun that =>
              tbind (merge_children (t_children self) [that]) (fun c =>
              tret (Node (t_prefix self) (t_value self) c)))
            else tret self in
          spend (Work c 0) (tmap t_unsplit r)
      end.
    Definition krt_remove_prefix_with (self : rtree K V) (that : rtree K W) : tally (rtree K V) :=
      kremove_with (S (t_size self + t_size that)) self that.
    Fixpoint kretain_with (fuel : nat) (self : rtree K V) (that : rtree K W) : tally (rtree K V) :=
      match fuel with
      | 0 => (OutOfFuel, wk0)
      | S fuel' =>
          let merge_children := kchildren_with (kretain_with fuel') false false false NoConverter in
          let (n, c) := common_prefix_count kcmp (t_prefix self) (t_prefix that) in
          let r :=
            if (n =? length (t_prefix self)) && (n =? length (t_prefix that)) then
              if hit f (t_value that) then tret self
              else tbind (merge_children (t_children self) (t_children that)) (fun c =>
                   tret (Node (t_prefix self) None c))
            else if n =? length (t_prefix that) then
              if hit f (t_value that) then tret self
              else tbind (t_split self n, wk0) (fun self =>
                   tbind (merge_children (t_children self) (t_children that)) (fun c =>
                   tret (Node (t_prefix self) (t_value self) c)))
            else if n =? length (t_prefix self) then
              tbind (kmat_short that n) (fun that =>
              tbind (merge_children (t_children self) [that]) (fun c =>
              tret (Node (t_prefix self) None c)))
            else tret (Node (t_prefix self) None []) in
          spend (Work c 0) (tmap t_unsplit r)
      end.
    Definition krt_retain_prefix_with (self : rtree K V) (that : rtree K W) : tally (rtree K V) :=
      kretain_with (S (t_size self + t_size that)) self that.
  End PrefixWith.

  (** outer_combine mod.rs:1031-1092, as [outer_pure] *)
  Section OuterPure.
    Context {V : Type} (f : V -> V -> option V).
    (** mod.rs:1050-1051 *)
    Definition clone_val (v w : option V) : nat :=
      match v, w with Some _, None => 1 | None, Some _ => 1 | _, _ => 0 end.
    Fixpoint kouter_pure (fuel : nat) (a b : rtree K V) : tally (rtree K V) :=
      match fuel with
      | 0 => (OutOfFuel, wk0)
      | S fuel' =>
          let merge_children := kchildren_pure (kouter_pure fuel') true true true true mat_conv mat_conv in
          let (n, c) := common_prefix_count kcmp (t_prefix a) (t_prefix b) in
          let prefix := firstn n (t_prefix a) in
          let r :=
            if (n =? length (t_prefix a)) && (n =? length (t_prefix b)) then
              spend (Work 0 (clone_val (t_value a) (t_value b)))
              (tbind (merge_children (t_children a) (t_children b)) (fun c =>
              tret (Node prefix (val_outer f (t_value a) (t_value b)) c)))
            else if n =? length (t_prefix a) then
              tbind (kmat_short b n) (fun b =>
              spend (Work 0 (cloned (t_value a)))
              (tbind (merge_children (t_children a) [b]) (fun c =>
              tret (Node prefix (t_value a) c))))
            else if n =? length (t_prefix b) then
              tbind (kmat_short a n) (fun a =>
              spend (Work 0 (cloned (t_value b)))
              (tbind (merge_children [a] (t_children b)) (fun c =>
              tret (Node prefix (t_value b) c))))
            else
              tbind (kmat_short a n) (fun a =>
              tbind (kmat_short b n) (fun b =>
              tbind (ksort_heads [a; b]) (fun c => tret (Node prefix None c)))) in
          spend (Work c 0) (tmap t_unsplit r)
      end.
    Definition krt_outer_combine (a b : rtree K V) : tally (rtree K V) :=
      kouter_pure (S (t_size a + t_size b)) a b.
  End OuterPure.

  (** inner_combine mod.rs:1095-1143, as [inner_pure] *)
  Section InnerPure.
    Context {V W : Type} (f : V -> W -> option V).
    Fixpoint kinner_pure (fuel : nat) (a : rtree K V) (b : rtree K W) : tally (rtree K V) :=
      match fuel with
      | 0 => (OutOfFuel, wk0)
      | S fuel' =>
          let merge_children := kchildren_pure (kinner_pure fuel') false false true false mat_conv NoConverter in
          let (n, c) := common_prefix_count kcmp (t_prefix a) (t_prefix b) in
          let prefix := firstn n (t_prefix a) in
          let r :=
            if (n =? length (t_prefix a)) && (n =? length (t_prefix b)) then
              tbind (merge_children (t_children a) (t_children b)) (fun c =>
              tret (Node prefix (val_inner f (t_value a) (t_value b)) c))
            else if n =? length (t_prefix a) then
              tbind (kmat_short b n) (fun b =>
              tbind (merge_children (t_children a) [b]) (fun c =>
              tret (Node prefix None c)))
            else if n =? length (t_prefix b) then
              tbind (kmat_short a n) (fun a =>
              tbind (merge_children [a] (t_children b)) (fun c =>
              tret (Node prefix None c)))
            else tret (Node prefix None []) in
          spend (Work c 0) (tmap t_unsplit r)
      end.
    Definition krt_inner_combine (a : rtree K V) (b : rtree K W) : tally (rtree K V) :=
      kinner_pure (S (t_size a + t_size b)) a b.
  End InnerPure.

  (** left_combine mod.rs:1146-1202, as [left_pure] *)
  Section LeftPure.
    Context {V W : Type} (f : V -> option W -> option V).
    Fixpoint kleft_pure (fuel : nat) (a : rtree K V) (b : rtree K W) : tally (rtree K V) :=
      match fuel with
      | 0 => (OutOfFuel, wk0)
      | S fuel' =>
          let merge_children := kchildren_pure (kleft_pure fuel') true false true false mat_conv NoConverter in
          let (n, c) := common_prefix_count kcmp (t_prefix a) (t_prefix b) in
          let prefix := firstn n (t_prefix a) in
          let r :=
            if (n =? length (t_prefix a)) && (n =? length (t_prefix b)) then
              tbind (merge_children (t_children a) (t_children b)) (fun c =>
              tret (Node prefix (val_left f (t_value a) (t_value b)) c))
            else if n =? length (t_prefix a) then
              tbind (kmat_short b n) (fun b =>
              spend (Work 0 (cloned (t_value a)))
              (tbind (merge_children (t_children a) [b]) (fun c =>
              tret (Node prefix (t_value a) c))))
            else if n =? length (t_prefix b) then
              tbind (kmat_short a n) (fun a =>
              tbind (merge_children [a] (t_children b)) (fun c =>
              tret (Node prefix None c)))
            else
              spend (Work 0 (cloned (t_value a)))
              (tbind (kmat_all (t_children a)) (fun c => tret (Node (t_prefix a) (t_value a) c))) in
          spend (Work c 0) (tmap t_unsplit r)
      end.
    Definition krt_left_combine (a : rtree K V) (b : rtree K W) : tally (rtree K V) :=
      kleft_pure (S (t_size a + t_size b)) a b.
  End LeftPure.

  (** IntersectOp mod.rs:1204-1231, NonSubsetOp 1232-1258, as [op_bool] *)
  Section Bool.
    Context {V W : Type} (rec : rtree K V -> rtree K W -> tally bool).
    Notation bst := (bstate (rtree K V) (rtree K W)).
    Definition kcoll_bool (s : bst * work) : out (bst * work) :=
      let (m, w) := s in
      match bs_a m, bs_b m with
      | a :: _, b :: _ =>
          let (r, w1) := rec a b in
          match r with
          | Ok take => owork (wadd w w1) (obind (adv_a bs_msm m 1 take) (fun m' => adv_b bs_msm m' 1 false))
          | Panicked => Panic (m, wadd w w1)
          | OutOfFuel => NoFuel
          end
      | _, _ => Panic (m, w)
      end.
    Definition kop_bool (ta : bool) : mop (bst * work) (rtree K V) (rtree K W) :=
      MkMop (fun s => bs_a (fst s)) (fun s => bs_b (fst s)) (head_cmp kcmp)
            (fun s n => owork (snd s) (adv_a bs_msm (fst s) n ta))
            (fun s n => owork (snd s) (adv_b bs_msm (fst s) n false)) kcoll_bool.
    Definition kbs_merge (ta : bool) (a : list (rtree K V)) (b : list (rtree K W)) : tally bool :=
      collect_work bs_r (wmerge kcount (kop_bool ta) strat (bs_new a b, wk0) 0).
  End Bool.
  (** [iter().any(..)], [iter().all(..)] mod.rs:977-979, 985-987, 1012-1014, 1018-1020 *)
  Fixpoint kany {X} (p : X -> tally bool) (l : list X) : tally bool :=
    match l with
    | [] => tret false
    | x :: l' => tbind (p x) (fun b => if b then tret true else kany p l')
    end.
  Fixpoint kall {X} (p : X -> tally bool) (l : list X) : tally bool :=
    match l with
    | [] => tret true
    | x :: l' => tbind (p x) (fun b => if b then kall p l' else tret false)
    end.
  (** intersects0 mod.rs:1001-1028, is_subset0 961-992; as in RadixModel.v *)
  Section Preds.
    Context {V W : Type}.
    Fixpoint kintersects0 (fuel : nat) (l : rtree K V) (lp : list K) (r : rtree K W) (rp : list K) : tally bool :=
      match fuel with
      | 0 => (OutOfFuel, wk0)
      | S fuel' =>
          let (n, c) := common_prefix_count kcmp lp rp in
          spend (Work c 0)
          (if (n =? length lp) && (n =? length rp) then
            if (match t_value l, t_value r with Some _, Some _ => true | _, _ => false end) then tret true
            else kbs_merge (fun a b => kintersects0 fuel' a (t_prefix a) b (t_prefix b)) false
                           (t_children l) (t_children r)
          else if n =? length lp then
            kany (fun lc => kintersects0 fuel' lc (t_prefix lc) r (skipn n rp)) (t_children l)
          else if n =? length rp then
            kany (fun rc => kintersects0 fuel' l (skipn n lp) rc (t_prefix rc)) (t_children r)
          else tret false)
      end.
    Definition krt_intersects (l : rtree K V) (r : rtree K W) : tally bool :=
      kintersects0 (S (t_size l + t_size r)) l (t_prefix l) r (t_prefix r).
    Fixpoint kis_subset0 (fuel : nat) (l : rtree K V) (lp : list K) (r : rtree K W) (rp : list K) : tally bool :=
      match fuel with
      | 0 => (OutOfFuel, wk0)
      | S fuel' =>
          let (n, c) := common_prefix_count kcmp lp rp in
          spend (Work c 0)
          (if (n =? length lp) && (n =? length rp) then
            if (match t_value l, t_value r with None, _ => true | _, Some _ => true | _, _ => false end) then
              tmap negb
                (kbs_merge (fun a b => tmap negb (kis_subset0 fuel' a (t_prefix a) b (t_prefix b))) true
                           (t_children l) (t_children r))
            else tret false
          else if n =? length lp then
            match t_value l with
            | None => kall (fun lc => kis_subset0 fuel' lc (t_prefix lc) r (skipn n rp)) (t_children l)
            | Some _ => tret false
            end
          else if n =? length rp then
            kany (fun rc => kis_subset0 fuel' l (skipn n lp) rc (t_prefix rc)) (t_children r)
          else tret false)
      end.
    Definition krt_is_subset (l : rtree K V) (r : rtree K W) : tally bool :=
      kis_subset0 (S (t_size l + t_size r)) l (t_prefix l) r (t_prefix r).
  End Preds.
End Work.

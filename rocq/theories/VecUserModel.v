(** The operators of VecSet and the joins of VecMap with all the user code they run left open at once: [cmp] of the elements or
    keys, [Clone], and the closures. All of it runs in one world [E], may answer differently each time, break every law, and panic.
    The merge states and operations are those of CloneModel.v and VecMapModel.v; the merge is [gmerge] (RadixUserModel.v), which
    asks the comparison below and not the pure one stored in the operation (given as [unasked], never looked at). *)
From Verif Require Export CloneModel RadixUserModel.

(** the [cmp] of the merge operations (src/vec_set.rs:509-511, 524-526, 539-541, 554-556, src/vec_map.rs:280-282, 325-327,
    367-369, 409-411, 445-447, 481-483, 517-519, 553-555, 583-585) as user code *)
Definition wcmp {E C S A B} (cmp : clos E (C * C) comparison) (kA : A -> C) (kB : B -> C) (s : S * E) (a : A) (b : B)
  : (S * E) * option comparison :=
  let (e', r) := cmp (snd s) (kA a, kB b) in
  ((fst s, e'), match r with Ret q => Some q | Throw => None end).
Definition unasked {C : Type} (_ _ : C) : comparison := Eq.

Section USet.
  Context {T E : Type} (cmp : clos E (T * T) comparison) (clone : clos E T T) (strat : nat -> nat -> bool).
  Definition element (x : T) : T := x.
  (** SmallVecMergeState::merge src/merge_state.rs:354-359, as [cvs_merge] *)
  Definition uvs_merge (O : mop (vstate T T T * E) T T) (a b : list T) (e : E) : done (list T * E) :=
    to_done (fun s => (vs_r (fst s), snd s)) (gmerge (wcmp cmp element element) O strat (vs_new a b, e)).
  (** InPlaceSmallVecMergeStateRef::merge src/merge_state.rs:150-159, as [cipr_merge] *)
  Definition uipr_merge (O : mop (iprstate T T * E) T T) (a b : list T) (e : E) : done (list T * E) :=
    to_done (fun s => (bd_tgt (ipr_a (fst s)), snd s)) (gmerge (wcmp cmp element element) O strat (ipr_new a b, e)).
  (** &a | &b, union(): src/vec_set.rs:146-156, 390-395 *)
  Definition uset_union := uvs_merge (SetUnionOp unasked (cvs_msm clone)).
  (** &a & &b: src/vec_set.rs:158-168, 382-387 *)
  Definition uset_intersection := uvs_merge (SetIntersectionOp unasked (cvs_msm clone)).
  (** &a ^ &b: src/vec_set.rs:170-180, 397-402 *)
  Definition uset_symmetric_difference := uvs_merge (SetXorOp unasked (cvs_msm clone)).
  (** &a - &b: src/vec_set.rs:182-192, 404-409 *)
  Definition uset_difference := uvs_merge (SetDiffOpt unasked (cvs_msm clone)).
  (** a |= &b: src/vec_set.rs:436-440 *)
  Definition uset_or_assign_ref := uipr_merge (SetUnionOp unasked (cipr_msm clone)).
  (** a &= &b: src/vec_set.rs:417-428 *)
  Definition uset_and_assign_ref := uipr_merge (SetIntersectionOp unasked (cipr_msm clone)).
  (** a ^= &b: src/vec_set.rs:448-454 *)
  Definition uset_xor_assign_ref := uipr_merge (SetXorOp unasked (cipr_msm clone)).
  (** a -= &b: src/vec_set.rs:462-466 *)
  Definition uset_sub_assign_ref := uipr_merge (SetDiffOpt unasked (cipr_msm clone)).
End USet.

Section UMap.
  Context {K E : Type} (cmp : clos E (K * K) comparison) (clone : clos E K K) (strat : nat -> nat -> bool).
  Section VS.
    Context {V W R : Type}.
    Local Notation vst := (vstate (K * V) (K * W) (K * R)).
    (** as [cvs_join] *)
    Definition uvs_join (O : mop (vst * E) (K * V) (K * W)) (a : list (K * V)) (b : list (K * W)) (e : E)
      : done (list (K * R) * E) :=
      to_done (fun s => (vs_r (fst s), snd s)) (gmerge (wcmp cmp fst fst) O strat (vs_new a b, e)).
    (** src/vec_map.rs:61-73 *)
    Definition umap_outer_join (f : clos E (ojarg K V W) (option R)) := uvs_join (COuterJoinOp_v clone unasked f).
    (** src/vec_map.rs:75-87 *)
    Definition umap_left_join (f : clos E (K * V * option W) (option R)) := uvs_join (CLeftJoinOp_v clone unasked f).
    (** src/vec_map.rs:89-101 *)
    Definition umap_right_join (f : clos E (K * option V * W) (option R)) := uvs_join (CRightJoinOp_v clone unasked f).
    (** src/vec_map.rs:103-115 *)
    Definition umap_inner_join (f : clos E (K * V * W) (option R)) := uvs_join (CInnerJoinOp_v clone unasked f).
  End VS.
  Section IPR.
    Context {V W : Type}.
    Local Notation ist := (iprstate (K * V) (K * W)).
    (** as [cipr_join] *)
    Definition uipr_join (O : mop (ist * E) (K * V) (K * W)) (a : list (K * V)) (b : list (K * W)) (e : E)
      : done (list (K * V) * E) :=
      to_done (fun s => (bd_tgt (ipr_a (fst s)), snd s)) (gmerge (wcmp cmp fst fst) O strat (ipr_new a b, e)).
    (** src/vec_map.rs:716-727 *)
    Definition umap_outer_join_with (f : clos E (ojarg K V W) (option V)) := uipr_join (COuterJoinOp_i clone unasked f).
    (** src/vec_map.rs:690-701; nothing is cloned *)
    Definition umap_left_join_with (f : clos E (K * V * option W) (option V)) := uipr_join (LeftJoinOp_i unasked f).
    (** src/vec_map.rs:703-714 *)
    Definition umap_right_join_with (f : clos E (K * option V * W) (option V)) := uipr_join (CRightJoinOp_i clone unasked f).
    (** src/vec_map.rs:677-688; nothing is cloned *)
    Definition umap_inner_join_with (f : clos E (K * V * W) (option V)) := uipr_join (InnerJoinOp_i unasked f).
    (** combine_with src/vec_map.rs:737-754; nothing is cloned *)
    Definition umap_combine_with (f : clos E (V * V) V) (a b : list (K * V)) (e : E) : done (list (K * V) * E) :=
      to_done (fun s => (bd_tgt (ip_a (fst s)), snd s))
        (gmerge (wcmp cmp fst fst) (OuterJoinOp_p unasked (combine_clos f)) strat (ip_new a b, e)).
  End IPR.
End UMap.

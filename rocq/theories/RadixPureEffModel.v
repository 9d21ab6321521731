(** The combinations of radix trees that build a new tree, outer_combine, inner_combine and
    left_combine (src/radix_tree/mod.rs:655-679, 1031-1202), with closures that have effects and may
    panic. A closure [Fn(&V, &W) -> Option<V>] is a [clos E (V * W) (option V)] (VecMapModel.v), one
    of left_combine [Fn(&V, Option<&W>) -> Option<V>] a [clos E (V * option W) (option V)].
    Both operands are borrowed and are not changed; the tree under construction is local to the call
    and is dropped when a panic unwinds. A call thus gives [Some (e, Ret t)]: it returned [t] and left
    the world [e]; [Some (e, Throw)]: it panicked; [None]: out of fuel. Cloning a value has no effect
    here (CloneModel.v is about clones that do). Everything else is as in RadixModel.v. *)
From Verif Require Export RadixEffModel.

(** what a call gives *)
Definition given_back (E X : Type) := option (E * cres X).
Definition then_ {E X Y} (r : given_back E X) (k : X -> E -> given_back E Y) : given_back E Y :=
  match r with
  | Some (e, Ret x) => k x e
  | Some (e, Throw) => Some (e, Throw)
  | None => None
  end.
(** a step that makes no calls *)
Definition quiet {E X Y} (e : E) (r : res X) (k : X -> given_back E Y) : given_back E Y :=
  match r with Ok x => k x | Panicked => Some (e, Throw) | OutOfFuel => None end.

Section PureEff.
  Context {K : Type} (kcmp : K -> K -> comparison) (strat : nat -> nat -> bool) {E : Type}.

  (** VecMergeState::merge(a, b, op, ca, cb) src/merge_state.rs:418-443 *)
  Section Children.
    Context {V W : Type} (rec : rtree K V -> rtree K W -> E -> given_back E (rtree K V)).
    Notation vst := (vstate (rtree K V) (rtree K W) (rtree K V) * E)%type.
    (** the collision handlers mod.rs:1323-1334, 1400-1411, 1477-1488; see [coll_pure] *)
    Definition pcoll (s : vst) : out vst :=
      let (m, e) := s in
      match vs_a m, vs_b m with
      | a :: a', b :: b' =>
          match rec a b e with
          | Some (e', Ret r) => Cont (MkVs a' b' (if t_is_empty r then vs_r m else vs_r m ++ [r]), e')
          | Some (e', Throw) => Panic (MkVs a' b' (vs_r m), e')
          | None => NoFuel
          end
      | _, _ => Panic s
      end.
    (** runs a step that makes no calls *)
    Definition vquietly (o : out (vstate (rtree K V) (rtree K W) (rtree K V))) (e : E) : out vst :=
      match o with
      | Cont m => Cont (m, e)
      | Stop m => Stop (m, e)
      | Panic m => Panic (m, e)
      | NoFuel => NoFuel
      end.
    (** see [op_pure]; mod.rs:1297-1335, 1371-1412, 1449-1489 *)
    Definition pop_with (ta tb : bool) (ca : rtree K V -> option (rtree K V)) (cb : rtree K W -> option (rtree K V))
      : mop vst (rtree K V) (rtree K W) :=
      MkMop (fun s => vs_a (fst s)) (fun s => vs_b (fst s)) (head_cmp kcmp)
            (fun s n => vquietly (adv_a (vs_msm ca cb) (fst s) n ta) (snd s))
            (fun s n => vquietly (adv_b (vs_msm ca cb) (fst s) n tb) (snd s))
            pcoll.
    Definition pchildren (ta tb : bool) ca cb (a : list (rtree K V)) (b : list (rtree K W)) (e : E)
      : given_back E (list (rtree K V)) :=
      match merge (pop_with ta tb ca cb) strat (vs_new a b, e) with
      | Cont s => Some (snd s, Ret (vs_r (fst s)))
      | Stop s => Some (snd s, Ret (vs_r (fst s)))
      | Panic s => Some (snd s, Throw)
      | NoFuel => None
      end.
  End Children.

  (** [R::new(prefix, value, children)] and [unsplit] mod.rs:1089-1090, 1140-1141, 1199-1200 *)
  Definition built {V} (p : list K) (v : option V) (r : given_back E (list (rtree K V))) : given_back E (rtree K V) :=
    then_ r (fun c e => Some (e, Ret (t_unsplit (Node p v c)))).

  Section Outer.
    Context {V : Type} (f : clos E (V * V) (option V)).
    (** mod.rs:1048-1053 *)
    Definition pval_outer (v w : option V) (e : E) : given_back E (option V) :=
      match v, w with
      | Some a, Some b => Some (f e (a, b))
      | Some a, None => Some (e, Ret (Some a))
      | None, Some b => Some (e, Ret (Some b))
      | None, None => Some (e, Ret None)
      end.
    (** outer_combine mod.rs:1031-1090 *)
    Fixpoint pouter (fuel : nat) (a b : rtree K V) (e : E) : given_back E (rtree K V) :=
      match fuel with
      | 0 => None
      | S fuel' =>
          let merge_children := pchildren (pouter fuel') true true mat_conv mat_conv in
          let n := common_prefix kcmp (t_prefix a) (t_prefix b) in
          let prefix := firstn n (t_prefix a) in
          if (n =? length (t_prefix a)) && (n =? length (t_prefix b)) then
            then_ (pval_outer (t_value a) (t_value b) e) (fun v e =>
            built prefix v (merge_children (t_children a) (t_children b) e))
          else if n =? length (t_prefix a) then
            quiet e (mat_short b n) (fun b =>
            built prefix (t_value a) (merge_children (t_children a) [b] e))
          else if n =? length (t_prefix b) then
            quiet e (mat_short a n) (fun a =>
            built prefix (t_value b) (merge_children [a] (t_children b) e))
          else
            quiet e (mat_short a n) (fun a =>
            quiet e (mat_short b n) (fun b =>
            quiet e (sort_heads kcmp [a; b]) (fun c => built prefix None (Some (e, Ret c)))))
      end.
    (** method mod.rs:655-661 *)
    Definition prt_outer_combine (a b : rtree K V) (e : E) : given_back E (rtree K V) :=
      pouter (S (t_size a + t_size b)) a b e.
  End Outer.

  Section Inner.
    Context {V W : Type} (f : clos E (V * W) (option V)).
    (** mod.rs:1105-1108 *)
    Definition pval_inner (v : option V) (w : option W) (e : E) : given_back E (option V) :=
      match v, w with Some a, Some b => Some (f e (a, b)) | _, _ => Some (e, Ret None) end.
    (** inner_combine mod.rs:1094-1143 *)
    Fixpoint pinner (fuel : nat) (a : rtree K V) (b : rtree K W) (e : E) : given_back E (rtree K V) :=
      match fuel with
      | 0 => None
      | S fuel' =>
          let merge_children := pchildren (pinner fuel') false false mat_conv NoConverter in
          let n := common_prefix kcmp (t_prefix a) (t_prefix b) in
          let prefix := firstn n (t_prefix a) in
          if (n =? length (t_prefix a)) && (n =? length (t_prefix b)) then
            then_ (pval_inner (t_value a) (t_value b) e) (fun v e =>
            built prefix v (merge_children (t_children a) (t_children b) e))
          else if n =? length (t_prefix a) then
            quiet e (mat_short b n) (fun b =>
            built prefix None (merge_children (t_children a) [b] e))
          else if n =? length (t_prefix b) then
            quiet e (mat_short a n) (fun a =>
            built prefix None (merge_children [a] (t_children b) e))
          else built prefix None (Some (e, Ret []))
      end.
    (** method mod.rs:664-670 *)
    Definition prt_inner_combine (a : rtree K V) (b : rtree K W) (e : E) : given_back E (rtree K V) :=
      pinner (S (t_size a + t_size b)) a b e.
  End Inner.

  Section Left.
    Context {V W : Type} (f : clos E (V * option W) (option V)).
    (** mod.rs:1157-1160 *)
    Definition pval_left (v : option V) (w : option W) (e : E) : given_back E (option V) :=
      match v with Some a => Some (f e (a, w)) | None => Some (e, Ret None) end.
    (** left_combine mod.rs:1146-1202 *)
    Fixpoint pleft (fuel : nat) (a : rtree K V) (b : rtree K W) (e : E) : given_back E (rtree K V) :=
      match fuel with
      | 0 => None
      | S fuel' =>
          let merge_children := pchildren (pleft fuel') true false mat_conv NoConverter in
          let n := common_prefix kcmp (t_prefix a) (t_prefix b) in
          let prefix := firstn n (t_prefix a) in
          if (n =? length (t_prefix a)) && (n =? length (t_prefix b)) then
            then_ (pval_left (t_value a) (t_value b) e) (fun v e =>
            built prefix v (merge_children (t_children a) (t_children b) e))
          else if n =? length (t_prefix a) then
            quiet e (mat_short b n) (fun b =>
            built prefix (t_value a) (merge_children (t_children a) [b] e))
          else if n =? length (t_prefix b) then
            quiet e (mat_short a n) (fun a =>
            built prefix None (merge_children [a] (t_children b) e))
          else quiet e (mat_all (t_children a)) (fun c => built (t_prefix a) (t_value a) (Some (e, Ret c)))
      end.
    (** method mod.rs:673-679 *)
    Definition prt_left_combine (a : rtree K V) (b : rtree K W) (e : E) : given_back E (rtree K V) :=
      pleft (S (t_size a + t_size b)) a b e.
  End Left.
End PureEff.

(** Model of /repo/examples/multimap.rs: a multimap as a VecMap whose values are VecSets, and the
    bidirectional one. The comparisons of keys and of values return normally. *)
From Verif Require Export VecMapModel.

Section Multimap.
  Context {K V : Type} (kcmp : K -> K -> comparison) (vcmp : V -> V -> comparison) (strat : nat -> nat -> bool).
  (** Multimap: examples/multimap.rs:6 *)
  Definition multimap := list (K * list V).

  (** the closure [|a, b| &a | &b]: examples/multimap.rs:14, 53, 54 ([Throw]: the operator panicked) *)
  Definition union_clos : clos unit (list V * list V) (list V) :=
    fun e x => (e, match vset_union vcmp strat (fst x) (snd x) with Ok r => Ret r | _ => Throw end).
  (** single: examples/multimap.rs:9-11. VecSet2::single is the one-element set. *)
  Definition mm_single (k : K) (v : V) : res multimap :=
    match vmap_from_iter kcmp [(k, vset_single v)] with Some m => Ok m | None => OutOfFuel end.
  (** combine_with: examples/multimap.rs:13-15 *)
  Definition mm_combine_with (a b : multimap) : res multimap :=
    match vmap_combine_with kcmp strat union_clos a b tt with
    | Done (m, _) => Ok m
    | Unwound _ => Panicked
    | DoneNoFuel => OutOfFuel
    end.
  (** the loop of from_iter: examples/multimap.rs:27-29 *)
  Fixpoint mm_add_all (m : multimap) (items : list (K * V)) : res multimap :=
    match items with
    | [] => Ok m
    | (k, v) :: items' =>
        rbind (mm_single k v) (fun s => rbind (mm_combine_with m s) (fun m' => mm_add_all m' items'))
    end.
  (** from_iter: examples/multimap.rs:25-31; [default] (18-22) is the empty map *)
  Definition mm_from_iter (items : list (K * V)) : res multimap := mm_add_all vmap_empty items.
End Multimap.
Arguments multimap : clear implicits.

Section BiMultimap.
  Context {K V : Type} (kcmp : K -> K -> comparison) (vcmp : V -> V -> comparison) (strat : nat -> nat -> bool).
  (** BiMultimap: examples/multimap.rs:35 *)
  Definition bimultimap : Type := multimap K V * multimap V K.
  (** single: examples/multimap.rs:44-51 *)
  Definition bi_single (k : K) (v : V) : res bimultimap :=
    rbind (mm_single kcmp k v) (fun f => rbind (mm_single vcmp v k) (fun b => Ok (f, b))).
  (** combine_with: examples/multimap.rs:52-55 *)
  Definition bi_combine_with (x y : bimultimap) : res bimultimap :=
    rbind (mm_combine_with kcmp vcmp strat (fst x) (fst y)) (fun f =>
    rbind (mm_combine_with vcmp kcmp strat (snd x) (snd y)) (fun b => Ok (f, b))).
  (** the loop of from_iter: examples/multimap.rs:63-65 *)
  Fixpoint bi_add_all (m : bimultimap) (items : list (K * V)) : res bimultimap :=
    match items with
    | [] => Ok m
    | (k, v) :: items' =>
        rbind (bi_single k v) (fun s => rbind (bi_combine_with m s) (fun m' => bi_add_all m' items'))
    end.
  (** from_iter: examples/multimap.rs:61-67; default: 37-41 *)
  Definition bi_from_iter (items : list (K * V)) : res bimultimap := bi_add_all (vmap_empty, vmap_empty) items.
End BiMultimap.
Arguments bimultimap : clear implicits.

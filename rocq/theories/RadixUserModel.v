(** The radix tree operations once more, with every piece of user code they run left open: [==], [cmp] and [lt] of the
    key components, [Clone] of the values, and the closures. All of them run in a world [E] (everything user code can
    read or change), may answer differently each time, break every law of an order or of equality, disagree with each
    other, and panic ([Throw]). src/radix_tree/mod.rs; the structure is that of RadixModel.v, RadixEffModel.v and
    RadixPureEffModel.v (theorem C116_plain_*: for pure comparisons and clones it is the same function).
    Not user code: copying a key component (TKey is Copy, mod.rs:26-27), moving nodes. Dropping a value is not
    modelled as user code.
    A call that borrows gives [Some (e, Ret x)], [Some (e, Throw)] (it panicked) or [None] (out of fuel); an in-place
    call gives a [done], where [Unwound (t, e)] says what [self] is after the panic was caught. *)
From Verif Require Export RadixPureEffModel OracleModel.

(** what Ord, PartialOrd and PartialEq of the key components do *)
Record ucode (E K : Type) := Ucode {
  u_eq : clos E (K * K) bool;
  u_cmp : clos E (K * K) comparison;
  u_lt : clos E (K * K) bool }.
Arguments Ucode {E K}. Arguments u_eq {E K}. Arguments u_cmp {E K}. Arguments u_lt {E K}.

(** ** binary-merge with a comparison that acts on the state; [mo_cmp] is not looked at. As [merge] in Merge.v *)
Section GAlg.
  Context {S A B : Type} (c : S -> A -> B -> S * option comparison) (O : mop S A B).
  Fixpoint gbinary (fuel : nat) (s : S) (an bn : nat) : out S :=
    match fuel with
    | 0 => NoFuel
    | Datatypes.S fuel' =>
        if an =? 0 then (if bn =? 0 then Cont s else mo_from_b O s bn)
        else if bn =? 0 then mo_from_a O s an
        else
          let am := an / 2 in
          match nth_error (mo_a O s) am with
          | None => Panic s
          | Some x =>
              let (r, s0) := wbsearch (fun s y => let (s', q) := c s x y in (s', option_map CompOpp q))
                               (firstn bn (mo_b O s)) s in
              match r with
              | BsOk bm =>
                  obind (gbinary fuel' s0 am bm) (fun s1 =>
                  obind (mo_coll O s1) (fun s2 =>
                  gbinary fuel' s2 (an - am - 1) (bn - bm - 1)))
              | BsErr bi =>
                  obind (gbinary fuel' s0 am bi) (fun s1 =>
                  obind (mo_from_a O s1 1) (fun s2 =>
                  gbinary fuel' s2 (an - am - 1) (bn - bi)))
              | BsPanic => Panic s0
              | BsNoFuel => NoFuel
              end
          end
    end.
  Fixpoint gtape (fuel : nat) (s : S) : out S :=
    match fuel with
    | 0 => NoFuel
    | Datatypes.S fuel' =>
        match mo_a O s, mo_b O s with
        | [], [] => Cont s
        | [], _ :: _ => mo_from_b O s (length (mo_b O s))
        | _ :: _, [] => mo_from_a O s (length (mo_a O s))
        | x :: _, y :: _ =>
            let (s', r) := c s x y in
            match r with
            | None => Panic s'
            | Some Lt => obind (mo_from_a O s' 1) (gtape fuel')
            | Some Gt => obind (mo_from_b O s' 1) (gtape fuel')
            | Some Eq => obind (mo_coll O s') (gtape fuel')
            end
        end
    end.
  Definition gmerge (strat : nat -> nat -> bool) (s : S) : out S :=
    let an := length (mo_a O s) in
    let bn := length (mo_b O s) in
    if strat an bn then gtape (Datatypes.S (an + bn)) s else gbinary (Datatypes.S an) s an bn.
End GAlg.

Section User.
  Context {E K : Type} (u : ucode E K) (strat : nat -> nat -> bool).

  (** common_prefix mod.rs:53-55 *)
  Fixpoint ucommon (a b : list K) (e : E) : given_back E nat :=
    match a, b with
    | x :: a', y :: b' =>
        then_ (Some (u_eq u e (x, y))) (fun q e =>
        if q then then_ (ucommon a' b' e) (fun n e => Some (e, Ret (S n))) else Some (e, Ret 0))
    | _, _ => Some (e, Ret 0)
    end.

  (** the [cmp] of every merge operation (mod.rs:1215-1217, 1243-1245, 1274-1276, 1306-1308, 1350-1352, 1383-1385,
      1427-1429, 1460-1462, 1504-1506, 1538-1540); a panic on an empty prefix *)
  Definition uhead_cmp {S V X} (s : S * E) (a : rtree K V) (b : rtree K X) : (S * E) * option comparison :=
    match t_prefix a, t_prefix b with
    | x :: _, y :: _ =>
        let (e', r) := u_cmp u (snd s) (x, y) in
        ((fst s, e'), match r with Ret q => Some q | Throw => None end)
    | _, _ => (s, None)
    end.
  (** [unused]: the field gmerge does not look at *)
  Definition unused2 {A B : Type} (_ : A) (_ : B) : option comparison := None.

  Section Mat.
    Context {V : Type} (cl : clos E V V).
    (** [value().cloned()], [value().clone()] *)
    Definition uclone (v : option V) (e : E) : given_back E (option V) :=
      match v with
      | None => Some (e, Ret None)
      | Some v => then_ (Some (cl e v)) (fun v e => Some (e, Ret (Some v)))
      end.
    (** materialize_shortened mod.rs:642-652, 772-783: the value before the children *)
    Fixpoint umat (t : rtree K V) (n : nat) (e : E) : given_back E (rtree K V) :=
      let 'Node p v c := t in
      if n <? length p then
        then_ (uclone v e) (fun v e =>
        then_ ((fix go (l : list (rtree K V)) (e : E) : given_back E (list (rtree K V)) :=
                  match l with
                  | [] => Some (e, Ret [])
                  | x :: l' => then_ (umat x 0 e) (fun x e => then_ (go l' e) (fun l e => Some (e, Ret (x :: l))))
                  end) c e)
              (fun c e => Some (e, Ret (Node (skipn n p) v c))))
      else Some (e, Throw).
    (** [children.iter().map(materialize).collect()] mod.rs:1195-1199 *)
    Fixpoint umat_all (l : list (rtree K V)) (e : E) : given_back E (list (rtree K V)) :=
      match l with
      | [] => Some (e, Ret [])
      | x :: l' => then_ (umat x 0 e) (fun x e => then_ (umat_all l' e) (fun l e => Some (e, Ret (x :: l))))
      end.
    (** derive(Clone) flat_radix_tree.rs:6 *)
    Fixpoint uclone_tree (t : rtree K V) (e : E) : given_back E (rtree K V) :=
      let 'Node p v c := t in
      then_ (uclone v e) (fun v e =>
      then_ ((fix go (l : list (rtree K V)) (e : E) : given_back E (list (rtree K V)) :=
                match l with
                | [] => Some (e, Ret [])
                | x :: l' => then_ (uclone_tree x e) (fun x e => then_ (go l' e) (fun l e => Some (e, Ret (x :: l))))
                end) c e)
            (fun c e => Some (e, Ret (Node p v c)))).
  End Mat.

  (** [sort_by_key(|x| x.prefix()[0])] mod.rs:388, 1087 of two nodes: the sort of the standard library asks once,
      whether the second key is less than the first *)
  Definition usort2 {V} (a b : rtree K V) (e : E) : given_back E (list (rtree K V)) :=
    match t_prefix b, t_prefix a with
    | y :: _, x :: _ => then_ (Some (u_lt u e (y, x))) (fun q e => Some (e, Ret (if q then [b; a] else [a; b])))
    | _, _ => Some (e, Throw)
    end.

  (** ** find mod.rs:699-760 *)
  Section Find.
    Context {V : Type}.
    Fixpoint ufind_loop (fuel : nat) (t : rtree K V) (key : list K) (e : E) : given_back E (find_result (K := K) (V := V)) :=
      match fuel with
      | 0 => None
      | S fuel' =>
          then_ (ucommon (t_prefix t) key e) (fun n e =>
          let rp := length key - n in
          let rt := length (t_prefix t) - n in
          if (rp =? 0) && (rt =? 0) then Some (e, Ret (Found t))
          else if rp =? 0 then Some (e, Ret (FPrefix t rt))
          else if rt =? 0 then
            match nth_error key n with
            | None => Some (e, Throw)
            | Some c =>
                let (r, e) := wbsearch (fun e x => match t_prefix x with
                                                   | h :: _ => let (e', q) := u_cmp u e (h, c) in
                                                               (e', match q with Ret q => Some q | Throw => None end)
                                                   | [] => (e, None)
                                                   end) (t_children t) e in
                match r with
                | BsOk i => match nth_error (t_children t) i with
                            | Some child => ufind_loop fuel' child (skipn n key) e
                            | None => Some (e, Throw)
                            end
                | BsErr _ => Some (e, Ret (NotFound t rt rp))
                | BsPanic => Some (e, Throw)
                | BsNoFuel => None
                end
            end
          else Some (e, Ret (NotFound t rt rp)))
      end.
    Definition ufind (t : rtree K V) (key : list K) (e : E) := ufind_loop (S (t_size t)) t key e.
    (** get mod.rs:619-626 *)
    Definition urt_get (t : rtree K V) (key : list K) (e : E) : given_back E (option V) :=
      then_ (ufind t key e) (fun r e => Some (e, Ret (match r with Found t' => t_value t' | _ => None end))).
    (** contains_key mod.rs:609-616 *)
    Definition urt_contains_key (t : rtree K V) (key : list K) (e : E) : given_back E bool :=
      then_ (ufind t key e) (fun r e => Some (e, Ret (match r with
        | Found t' => match t_value t' with Some _ => true | None => false end
        | _ => false end))).
    (** filter_prefix mod.rs:269-285 *)
    Definition urt_filter_prefix (cl : clos E V V) (t : rtree K V) (prefix : list K) (e : E) : given_back E (rtree K V) :=
      then_ (ufind t prefix e) (fun r e =>
        match r with
        | Found t' => then_ (uclone_tree cl t' e) (fun t' e => Some (e, Ret (Node prefix (t_value t') (t_children t'))))
        | FPrefix t' rt =>
            then_ (uclone_tree cl t' e) (fun t' e =>
            let p := t_prefix t' in
            if rt <=? length p
            then Some (e, Ret (rt_prepend (Node (skipn (length p - rt) p) (t_value t') (t_children t')) prefix))
            else Some (e, Throw))
        | NotFound _ _ _ => Some (e, Ret rt_empty)
        end).
    (** scan_prefix mod.rs:682-696: the search runs user code, the iterator over what it found does not *)
    Definition urt_scan_prefix (t : rtree K V) (prefix : list K) (e : E) : given_back E (list (list K * V)) :=
      then_ (ufind t prefix e) (fun r e =>
        quiet e (match r with
                 | Found t' => iter_from t' prefix
                 | FPrefix t' rt =>
                     if rt <=? length (t_prefix t')
                     then iter_from t' (key_append prefix (skipn (length (t_prefix t') - rt) (t_prefix t')))
                     else Panicked
                 | NotFound _ _ _ => Ok []
                 end) (fun l => Some (e, Ret l))).
  End Find.

  (** ** InPlaceVecMergeStateRef::merge(self.children_mut(), &rhs, op, conv) mod.rs:169-235 *)
  Section InPlace.
    Context {V X : Type} (rec : rtree K V -> rtree K X -> E -> done (rtree K V * E)).
    Notation ist := (iprstate (rtree K V) (rtree K X) * E)%type.
    (** [extend_from_iter((&mut self.b).map(C::convert), n)] src/merge_state.rs:198-207, see [bd_extend] *)
    Fixpoint uextend (conv : rtree K X -> E -> given_back E (rtree K V)) (n : nat) (bd : builder (rtree K V))
      (b : list (rtree K X)) (e : E) : out ist :=
      match n with
      | 0 => Cont (MkIpr bd b, e)
      | S n' =>
          match b with
          | [] => Cont (MkIpr bd [], e)
          | y :: b' =>
              match conv y e with
              | Some (e, Ret x) => uextend conv n' (bd_push bd x) b' e
              | Some (e, Throw) => Panic (MkIpr bd b', e)
              | None => NoFuel
              end
          end
      end.
    (** NoConverter src/merge_state.rs:300-306 *)
    Definition uno_conv (y : rtree K X) (e : E) : given_back E (rtree K V) := Some (e, Throw).
    (** src/merge_state.rs:194-197 *)
    Definition uadv_a (s : ist) (n : nat) (take : bool) : out ist :=
      Cont (MkIpr (bd_consume (ipr_a (fst s)) n take) (ipr_b (fst s)), snd s).
    (** src/merge_state.rs:198-207 *)
    Definition uadv_b (conv : rtree K X -> E -> given_back E (rtree K V)) (s : ist) (n : nat) (take : bool) : out ist :=
      if take then uextend conv n (ipr_a (fst s)) (ipr_b (fst s)) (snd s)
      else Cont (MkIpr (ipr_a (fst s)) (skipn n (ipr_b (fst s))), snd s).
    (** mod.rs:1283-1292, 1358-1368, 1436-1446, 1512-1522, 1546-1556 *)
    Definition ucoll_with (s : ist) : out ist :=
      let (m, e) := s in
      match bd_src (ipr_a m), ipr_b m with
      | av :: a', bv :: _ =>
          match rec av bv e with
          | Done (av', e') =>
              let m' := MkIpr (MkB (bd_tgt (ipr_a m)) (av' :: a') (bd_drop (ipr_a m))) (ipr_b m) in
              obind (uadv_a (m', e') 1 (negb (t_is_empty av'))) (fun s => uadv_b uno_conv s 1 false)
          | Unwound (av', e') =>
              Panic (MkIpr (MkB (bd_tgt (ipr_a m)) (av' :: a') (bd_drop (ipr_a m))) (ipr_b m), e')
          | DoneNoFuel => NoFuel
          end
      | _, _ => Panic s
      end.
    Definition uop_with (ta tb : bool) (conv : rtree K X -> E -> given_back E (rtree K V))
      : mop ist (rtree K V) (rtree K X) :=
      MkMop (fun s => bd_src (ipr_a (fst s))) (fun s => ipr_b (fst s)) unused2
            (fun s n => uadv_a s n ta) (fun s n => uadv_b conv s n tb) ucoll_with.
    Definition uchildren_with (ta tb : bool) (conv : rtree K X -> E -> given_back E (rtree K V))
               (a : list (rtree K V)) (b : list (rtree K X)) (e : E) : done (list (rtree K V) * E) :=
      to_done (fun s => (bd_tgt (ipr_a (fst s)), snd s))
              (gmerge uhead_cmp (uop_with ta tb conv) strat (ipr_new a b, e)).
  End InPlace.

  (** [self.unsplit()] after the children are merged, or the unwinding out of the merge *)
  Definition ufinish {V} (p : list K) (v : option V) (r : done (list (rtree K V) * E)) : done (rtree K V * E) :=
    match r with
    | Done (c, e) => Done (t_unsplit (Node p v c), e)
    | Unwound (c, e) => Unwound (Node p v c, e)
    | DoneNoFuel => DoneNoFuel
    end.
  (** a step on something else than [self], which is what remains when it panics *)
  Definition ulift {V X} (self : rtree K V) (r : given_back E X) (k : X -> E -> done (rtree K V * E)) : done (rtree K V * E) :=
    match r with
    | Some (e, Ret x) => k x e
    | Some (e, Throw) => Unwound (self, e)
    | None => DoneNoFuel
    end.
  (** split mod.rs:131-140 *)
  Definition usplit {V} (self : rtree K V) (n : nat) (e : E) (k : rtree K V -> done (rtree K V * E)) : done (rtree K V * E) :=
    match t_split self n with Ok t => k t | Panicked => Unwound (self, e) | OutOfFuel => DoneNoFuel end.
  (** the value of [self] is updated: the new value, the world, whether the user code returned *)
  Definition uvalue {V} (p : list K) (c : list (rtree K V)) (r : option V * E * bool)
    (k : option V -> E -> done (rtree K V * E)) : done (rtree K V * E) :=
    let '(v, e, ok) := r in if ok then k v e else Unwound (Node p v c, e).

  (** [if !f(v, w) { *self.value_mut() = None; }] mod.rs:355-357, 378-380, 407-409, 450-452 *)
  Definition ucall {V X} (f : mclos E V X) (v : V) (x : X) (e : E) : option V * E * bool :=
    let '(e', v', r) := f e v x in
    match r with
    | Ret true => (Some v', e', true)
    | Ret false => (None, e', true)
    | Throw => (Some v', e', false)
    end.

  Section OuterWith.
    Context {V : Type} (cl : clos E V V) (f : mclos E V V).
    (** mod.rs:353-361 and 376-384 *)
    Definition uupd_outer (v w : option V) (e : E) : option V * E * bool :=
      match w with
      | Some w => match v with
                  | Some v => ucall f v w e
                  | None => let (e', r) := cl e w in
                            match r with Ret w' => (Some w', e', true) | Throw => (None, e', false) end
                  end
      | None => (v, e, true)
      end.
    (** outer_combine_with mod.rs:345-391; OuterCombineOp (in place) mod.rs:1261-1293 *)
    Fixpoint uouter_with (fuel : nat) (self that : rtree K V) (e : E) : done (rtree K V * E) :=
      match fuel with
      | 0 => DoneNoFuel
      | S fuel' =>
          let merge_children := uchildren_with (uouter_with fuel') true true (fun t => umat cl t 0) in
          ulift self (ucommon (t_prefix self) (t_prefix that) e) (fun n e =>
          if (n =? length (t_prefix self)) && (n =? length (t_prefix that)) then
            uvalue (t_prefix self) (t_children self) (uupd_outer (t_value self) (t_value that) e) (fun v e =>
            ufinish (t_prefix self) v (merge_children (t_children self) (t_children that) e))
          else if n =? length (t_prefix self) then
            ulift self (umat cl that n e) (fun that e =>
            ufinish (t_prefix self) (t_value self) (merge_children (t_children self) [that] e))
          else if n =? length (t_prefix that) then
            usplit self n e (fun self =>
            uvalue (t_prefix self) (t_children self) (uupd_outer (t_value self) (t_value that) e) (fun v e =>
            ufinish (t_prefix self) v (merge_children (t_children self) (t_children that) e)))
          else
            usplit self n e (fun self =>
            ulift self (umat cl that n e) (fun that e =>
            (* the node is pushed, then the two are sorted *)
            match t_children self with
            | [a] => ulift (Node (t_prefix self) (t_value self) [a; that]) (usort2 a that e) (fun c e =>
                     Done (t_unsplit (Node (t_prefix self) (t_value self) c), e))
            | _ => Unwound (self, e)
            end)))
      end.
    Definition urt_outer_combine_with (self that : rtree K V) (e : E) : done (rtree K V * E) :=
      uouter_with (S (t_size self + t_size that)) self that e.
  End OuterWith.
  (** insert mod.rs:261-266: the closure is [|a, b| { *a = b.clone(); true }] *)
  Definition insert_clos {V} (cl : clos E V V) : mclos E V V := fun e a b =>
    let (e', r) := cl e b in match r with Ret b' => (e', b', Ret true) | Throw => (e', a, Throw) end.
  Definition urt_insert {V} (cl : clos E V V) (t : rtree K V) (key : list K) (value : V) (e : E) : done (rtree K V * E) :=
    urt_outer_combine_with cl (insert_clos cl) t (rt_single key value) e.

  Section InnerLeftWith.
    Context {V X : Type} (cx : clos E X X) (f : mclos E V X).
    (** mod.rs:406-412 *)
    Definition uupd_inner (v : option V) (w : option X) (e : E) : option V * E * bool :=
      match v, w with
      | Some v, Some w => ucall f v w e
      | _, _ => (None, e, true)
      end.
    (** inner_combine_with mod.rs:398-431; InnerCombineOp (in place) mod.rs:1338-1369 *)
    Fixpoint uinner_with (fuel : nat) (self : rtree K V) (that : rtree K X) (e : E) : done (rtree K V * E) :=
      match fuel with
      | 0 => DoneNoFuel
      | S fuel' =>
          let merge_children := uchildren_with (uinner_with fuel') false false uno_conv in
          ulift self (ucommon (t_prefix self) (t_prefix that) e) (fun n e =>
          if (n =? length (t_prefix self)) && (n =? length (t_prefix that)) then
            uvalue (t_prefix self) (t_children self) (uupd_inner (t_value self) (t_value that) e) (fun v e =>
            ufinish (t_prefix self) v (merge_children (t_children self) (t_children that) e))
          else if n =? length (t_prefix self) then
            ulift (Node (t_prefix self) None (t_children self)) (umat cx that n e) (fun that e =>
            ufinish (t_prefix self) None (merge_children (t_children self) [that] e))
          else if n =? length (t_prefix that) then
            usplit self n e (fun self =>
            ufinish (t_prefix self) (t_value self) (merge_children (t_children self) (t_children that) e))
          else Done (t_unsplit (Node (t_prefix self) None []), e))
      end.
    Definition urt_inner_combine_with (self : rtree K V) (that : rtree K X) (e : E) : done (rtree K V * E) :=
      uinner_with (S (t_size self + t_size that)) self that e.

    (** mod.rs:448-454 *)
    Definition uupd_left (v : option V) (w : option X) (e : E) : option V * E * bool :=
      match v, w with
      | Some v, Some w => ucall f v w e
      | _, _ => (v, e, true)
      end.
    (** left_combine_with mod.rs:440-468; LeftCombineOp (in place) mod.rs:1415-1447 *)
    Fixpoint uleft_with (fuel : nat) (self : rtree K V) (that : rtree K X) (e : E) : done (rtree K V * E) :=
      match fuel with
      | 0 => DoneNoFuel
      | S fuel' =>
          let merge_children := uchildren_with (uleft_with fuel') true false uno_conv in
          ulift self (ucommon (t_prefix self) (t_prefix that) e) (fun n e =>
          if (n =? length (t_prefix self)) && (n =? length (t_prefix that)) then
            uvalue (t_prefix self) (t_children self) (uupd_left (t_value self) (t_value that) e) (fun v e =>
            ufinish (t_prefix self) v (merge_children (t_children self) (t_children that) e))
          else if n =? length (t_prefix self) then
            ulift self (umat cx that n e) (fun that e =>
            ufinish (t_prefix self) (t_value self) (merge_children (t_children self) [that] e))
          else if n =? length (t_prefix that) then
            usplit self n e (fun self =>
            ufinish (t_prefix self) (t_value self) (merge_children (t_children self) (t_children that) e))
          else Done (t_unsplit self, e))
      end.
    Definition urt_left_combine_with (self : rtree K V) (that : rtree K X) (e : E) : done (rtree K V * E) :=
      uleft_with (S (t_size self + t_size that)) self that e.
  End InnerLeftWith.

  Section PrefixWith.
    Context {V X : Type} (cx : clos E X X) (f : clos E X bool).
    (** mod.rs:483, 495, 525, 531 *)
    Definition uhit (w : option X) (e : E) : given_back E bool :=
      match w with None => Some (e, Ret false) | Some w => Some (f e w) end.
    (** remove_prefix_with mod.rs:474-511; RemovePrefixOp mod.rs:1492-1523 *)
    Fixpoint uremove_with (fuel : nat) (self : rtree K V) (that : rtree K X) (e : E) : done (rtree K V * E) :=
      match fuel with
      | 0 => DoneNoFuel
      | S fuel' =>
          let merge_children := uchildren_with (uremove_with fuel') true false uno_conv in
          ulift self (ucommon (t_prefix self) (t_prefix that) e) (fun n e =>
          if (n =? length (t_prefix self)) && (n =? length (t_prefix that)) then
            ulift self (uhit (t_value that) e) (fun b e =>
            if b then Done (t_unsplit (Node (t_prefix self) None []), e)
            else ufinish (t_prefix self) (t_value self) (merge_children (t_children self) (t_children that) e))
          else if n =? length (t_prefix that) then
            ulift self (uhit (t_value that) e) (fun b e =>
            if b then Done (t_unsplit (Node (t_prefix self) None []), e)
            else usplit self n e (fun self =>
                 ufinish (t_prefix self) (t_value self) (merge_children (t_children self) (t_children that) e)))
          else if n =? length (t_prefix self) then
            ulift self (umat cx that n e) (fun that e =>
            ufinish (t_prefix self) (t_value self) (merge_children (t_children self) [that] e))
          else Done (t_unsplit self, e))
      end.
    Definition urt_remove_prefix_with (self : rtree K V) (that : rtree K X) (e : E) : done (rtree K V * E) :=
      uremove_with (S (t_size self + t_size that)) self that e.

    (** retain_prefix_with mod.rs:517-546; RetainPrefixOp mod.rs:1526-1557 *)
    Fixpoint uretain_with (fuel : nat) (self : rtree K V) (that : rtree K X) (e : E) : done (rtree K V * E) :=
      match fuel with
      | 0 => DoneNoFuel
      | S fuel' =>
          let merge_children := uchildren_with (uretain_with fuel') false false uno_conv in
          ulift self (ucommon (t_prefix self) (t_prefix that) e) (fun n e =>
          if (n =? length (t_prefix self)) && (n =? length (t_prefix that)) then
            ulift self (uhit (t_value that) e) (fun b e =>
            if b then Done (t_unsplit self, e)
            else ufinish (t_prefix self) None (merge_children (t_children self) (t_children that) e))
          else if n =? length (t_prefix that) then
            ulift self (uhit (t_value that) e) (fun b e =>
            if b then Done (t_unsplit self, e)
            else usplit self n e (fun self =>
                 ufinish (t_prefix self) (t_value self) (merge_children (t_children self) (t_children that) e)))
          else if n =? length (t_prefix self) then
            ulift (Node (t_prefix self) None (t_children self)) (umat cx that n e) (fun that e =>
            ufinish (t_prefix self) None (merge_children (t_children self) [that] e))
          else Done (t_unsplit (Node (t_prefix self) None []), e))
      end.
    Definition urt_retain_prefix_with (self : rtree K V) (that : rtree K X) (e : E) : done (rtree K V * E) :=
      uretain_with (S (t_size self + t_size that)) self that e.
  End PrefixWith.

  (** ** VecMergeState::merge(a, b, op, ca, cb) src/merge_state.rs:418-443 *)
  Section Pure.
    Context {V X : Type} (rec : rtree K V -> rtree K X -> E -> given_back E (rtree K V)).
    Notation vst := (vstate (rtree K V) (rtree K X) (rtree K V) * E)%type.
    (** src/merge_state.rs:463-465, 473-475, see [push_all] *)
    Fixpoint upush {Y} (conv : rtree K Y -> E -> given_back E (rtree K V)) (l : list (rtree K Y))
      (a : list (rtree K V)) (b : list (rtree K X)) (r : list (rtree K V)) (e : E) : out vst :=
      match l with
      | [] => Cont (MkVs a b r, e)
      | y :: l' =>
          match conv y e with
          | Some (e, Ret x) => upush conv l' a b (r ++ [x]) e
          | Some (e, Throw) => Panic (MkVs a b r, e)
          | None => NoFuel
          end
      end.
    (** src/merge_state.rs:460-470 *)
    Definition uvs_adv_a (conv : rtree K V -> E -> given_back E (rtree K V)) (s : vst) (n : nat) (take : bool) : out vst :=
      match si_take_front (vs_a (fst s)) n with
      | None => Panic s
      | Some (h, t) =>
          if take then upush conv h t (vs_b (fst s)) (vs_r (fst s)) (snd s)
          else Cont (MkVs t (vs_b (fst s)) (vs_r (fst s)), snd s)
      end.
    (** src/merge_state.rs:471-481 *)
    Definition uvs_adv_b (conv : rtree K X -> E -> given_back E (rtree K V)) (s : vst) (n : nat) (take : bool) : out vst :=
      match si_take_front (vs_b (fst s)) n with
      | None => Panic s
      | Some (h, t) =>
          if take then upush conv h (vs_a (fst s)) t (vs_r (fst s)) (snd s)
          else Cont (MkVs (vs_a (fst s)) t (vs_r (fst s)), snd s)
      end.
    (** mod.rs:1323-1334, 1400-1411, 1477-1488 *)
    Definition ucoll_pure (s : vst) : out vst :=
      let (m, e) := s in
      match vs_a m, vs_b m with
      | a :: a', b :: b' =>
          match rec a b e with
          | Some (e', Ret r) => Cont (MkVs a' b' (if t_is_empty r then vs_r m else vs_r m ++ [r]), e')
          | Some (e', Throw) => Panic (MkVs a' b' (vs_r m), e')
          | None => NoFuel
          end
      | _, _ => Panic s
      end.
    Definition uop_pure (ta tb : bool) ca cb : mop vst (rtree K V) (rtree K X) :=
      MkMop (fun s => vs_a (fst s)) (fun s => vs_b (fst s)) unused2
            (fun s n => uvs_adv_a ca s n ta) (fun s n => uvs_adv_b cb s n tb) ucoll_pure.
    Definition uchildren (ta tb : bool) ca cb (a : list (rtree K V)) (b : list (rtree K X)) (e : E)
      : given_back E (list (rtree K V)) :=
      match gmerge uhead_cmp (uop_pure ta tb ca cb) strat (vs_new a b, e) with
      | Cont s => Some (snd s, Ret (vs_r (fst s)))
      | Stop s => Some (snd s, Ret (vs_r (fst s)))
      | Panic s => Some (snd s, Throw)
      | NoFuel => None
      end.
  End Pure.
  (** [R::new(prefix, value, children)] and [unsplit] mod.rs:1089-1091, 1140-1142, 1199-1201 *)
  Definition ubuilt {V} (p : list K) (v : option V) (r : given_back E (list (rtree K V))) : given_back E (rtree K V) :=
    then_ r (fun c e => Some (e, Ret (t_unsplit (Node p v c)))).

  Section Outer.
    Context {V : Type} (cl : clos E V V) (f : clos E (V * V) (option V)).
    (** mod.rs:1048-1053 *)
    Definition uval_outer (v w : option V) (e : E) : given_back E (option V) :=
      match v, w with
      | Some a, Some b => Some (f e (a, b))
      | Some a, None => uclone cl (Some a) e
      | None, Some b => uclone cl (Some b) e
      | None, None => Some (e, Ret None)
      end.
    (** outer_combine mod.rs:1031-1092 *)
    Fixpoint uouter (fuel : nat) (a b : rtree K V) (e : E) : given_back E (rtree K V) :=
      match fuel with
      | 0 => None
      | S fuel' =>
          let merge_children := uchildren (uouter fuel') true true (fun t => umat cl t 0) (fun t => umat cl t 0) in
          then_ (ucommon (t_prefix a) (t_prefix b) e) (fun n e =>
          let prefix := firstn n (t_prefix a) in
          if (n =? length (t_prefix a)) && (n =? length (t_prefix b)) then
            then_ (uval_outer (t_value a) (t_value b) e) (fun v e =>
            ubuilt prefix v (merge_children (t_children a) (t_children b) e))
          else if n =? length (t_prefix a) then
            then_ (umat cl b n e) (fun b e =>
            then_ (uclone cl (t_value a) e) (fun v e =>
            ubuilt prefix v (merge_children (t_children a) [b] e)))
          else if n =? length (t_prefix b) then
            then_ (umat cl a n e) (fun a e =>
            then_ (uclone cl (t_value b) e) (fun v e =>
            ubuilt prefix v (merge_children [a] (t_children b) e)))
          else
            then_ (umat cl a n e) (fun a e =>
            then_ (umat cl b n e) (fun b e =>
            ubuilt prefix None (usort2 a b e))))
      end.
    Definition urt_outer_combine (a b : rtree K V) (e : E) : given_back E (rtree K V) :=
      uouter (S (t_size a + t_size b)) a b e.
  End Outer.

  Section Inner.
    Context {V X : Type} (cl : clos E V V) (cx : clos E X X) (f : clos E (V * X) (option V)).
    (** mod.rs:1104-1107 *)
    Definition uval_inner (v : option V) (w : option X) (e : E) : given_back E (option V) :=
      match v, w with Some a, Some b => Some (f e (a, b)) | _, _ => Some (e, Ret None) end.
    (** inner_combine mod.rs:1095-1143 *)
    Fixpoint uinner (fuel : nat) (a : rtree K V) (b : rtree K X) (e : E) : given_back E (rtree K V) :=
      match fuel with
      | 0 => None
      | S fuel' =>
          let merge_children := uchildren (uinner fuel') false false (fun t => umat cl t 0) uno_conv in
          then_ (ucommon (t_prefix a) (t_prefix b) e) (fun n e =>
          let prefix := firstn n (t_prefix a) in
          if (n =? length (t_prefix a)) && (n =? length (t_prefix b)) then
            then_ (uval_inner (t_value a) (t_value b) e) (fun v e =>
            ubuilt prefix v (merge_children (t_children a) (t_children b) e))
          else if n =? length (t_prefix a) then
            then_ (umat cx b n e) (fun b e =>
            ubuilt prefix None (merge_children (t_children a) [b] e))
          else if n =? length (t_prefix b) then
            then_ (umat cl a n e) (fun a e =>
            ubuilt prefix None (merge_children [a] (t_children b) e))
          else ubuilt prefix None (Some (e, Ret [])))
      end.
    Definition urt_inner_combine (a : rtree K V) (b : rtree K X) (e : E) : given_back E (rtree K V) :=
      uinner (S (t_size a + t_size b)) a b e.
  End Inner.

  Section Left.
    Context {V X : Type} (cl : clos E V V) (cx : clos E X X) (f : clos E (V * option X) (option V)).
    (** mod.rs:1157-1160 *)
    Definition uval_left (v : option V) (w : option X) (e : E) : given_back E (option V) :=
      match v with Some a => Some (f e (a, w)) | None => Some (e, Ret None) end.
    (** left_combine mod.rs:1146-1202 *)
    Fixpoint uleft (fuel : nat) (a : rtree K V) (b : rtree K X) (e : E) : given_back E (rtree K V) :=
      match fuel with
      | 0 => None
      | S fuel' =>
          let merge_children := uchildren (uleft fuel') true false (fun t => umat cl t 0) uno_conv in
          then_ (ucommon (t_prefix a) (t_prefix b) e) (fun n e =>
          let prefix := firstn n (t_prefix a) in
          if (n =? length (t_prefix a)) && (n =? length (t_prefix b)) then
            then_ (uval_left (t_value a) (t_value b) e) (fun v e =>
            ubuilt prefix v (merge_children (t_children a) (t_children b) e))
          else if n =? length (t_prefix a) then
            then_ (umat cx b n e) (fun b e =>
            then_ (uclone cl (t_value a) e) (fun v e =>
            ubuilt prefix v (merge_children (t_children a) [b] e)))
          else if n =? length (t_prefix b) then
            then_ (umat cl a n e) (fun a e =>
            ubuilt prefix None (merge_children [a] (t_children b) e))
          else
            then_ (uclone cl (t_value a) e) (fun v e =>
            ubuilt (t_prefix a) v (umat_all cl (t_children a) e)))
      end.
    Definition urt_left_combine (a : rtree K V) (b : rtree K X) (e : E) : given_back E (rtree K V) :=
      uleft (S (t_size a + t_size b)) a b e.
  End Left.

  (** ** Predicates *)
  Section Bool.
    Context {V X : Type} (rec : rtree K V -> rtree K X -> E -> given_back E bool).
    Notation bst := (bstate (rtree K V) (rtree K X) * E)%type.
    Definition ustep (o : out (bstate (rtree K V) (rtree K X))) (e : E) : out bst :=
      match o with
      | Cont m => Cont (m, e)
      | Stop m => Stop (m, e)
      | Panic m => Panic (m, e)
      | NoFuel => NoFuel
      end.
    (** IntersectOp::collision mod.rs:1224-1230, NonSubsetOp::collision 1250-1257 *)
    Definition ucoll_bool (s : bst) : out bst :=
      let (m, e) := s in
      match bs_a m, bs_b m with
      | a :: _, b :: _ =>
          match rec a b e with
          | Some (e', Ret take) => ustep (obind (bs_adv_a m 1 take) (fun m' => bs_adv_b m' 1 false)) e'
          | Some (e', Throw) => Panic (m, e')
          | None => NoFuel
          end
      | _, _ => Panic s
      end.
    (** IntersectOp mod.rs:1204-1231 ([ta] = false), NonSubsetOp mod.rs:1232-1258 ([ta] = true) *)
    Definition uop_bool (ta : bool) : mop bst (rtree K V) (rtree K X) :=
      MkMop (fun s => bs_a (fst s)) (fun s => bs_b (fst s)) unused2
            (fun s n => ustep (bs_adv_a (fst s) n ta) (snd s))
            (fun s n => ustep (bs_adv_b (fst s) n false) (snd s)) ucoll_bool.
    (** BoolOpMergeState::merge src/merge_state.rs:256-260 *)
    Definition ubool (ta : bool) (a : list (rtree K V)) (b : list (rtree K X)) (e : E) : given_back E bool :=
      match gmerge uhead_cmp (uop_bool ta) strat (bs_new a b, e) with
      | Cont s => Some (snd s, Ret (bs_r (fst s)))
      | Stop s => Some (snd s, Ret (bs_r (fst s)))
      | Panic s => Some (snd s, Throw)
      | NoFuel => None
      end.
  End Bool.
  (** [iter().any(..)], [iter().all(..)] *)
  Fixpoint uany {Y} (p : Y -> E -> given_back E bool) (l : list Y) (e : E) : given_back E bool :=
    match l with
    | [] => Some (e, Ret false)
    | x :: l' => then_ (p x e) (fun b e => if b then Some (e, Ret true) else uany p l' e)
    end.
  Fixpoint uall {Y} (p : Y -> E -> given_back E bool) (l : list Y) (e : E) : given_back E bool :=
    match l with
    | [] => Some (e, Ret true)
    | x :: l' => then_ (p x e) (fun b e => if b then uall p l' e else Some (e, Ret false))
    end.
  Section Preds.
    Context {V X : Type}.
    (** intersects0 mod.rs:1001-1028 *)
    Fixpoint uintersects0 (fuel : nat) (l : rtree K V) (lp : list K) (r : rtree K X) (rp : list K) (e : E) : given_back E bool :=
      match fuel with
      | 0 => None
      | S fuel' =>
          then_ (ucommon lp rp e) (fun n e =>
          if (n =? length lp) && (n =? length rp) then
            if (match t_value l, t_value r with Some _, Some _ => true | _, _ => false end) then Some (e, Ret true)
            else ubool (fun a b => uintersects0 fuel' a (t_prefix a) b (t_prefix b)) false (t_children l) (t_children r) e
          else if n =? length lp then
            uany (fun lc => uintersects0 fuel' lc (t_prefix lc) r (skipn n rp)) (t_children l) e
          else if n =? length rp then
            uany (fun rc => uintersects0 fuel' l (skipn n lp) rc (t_prefix rc)) (t_children r) e
          else Some (e, Ret false))
      end.
    (** intersects mod.rs:994-999, 578-580 *)
    Definition urt_intersects (l : rtree K V) (r : rtree K X) (e : E) : given_back E bool :=
      uintersects0 (S (t_size l + t_size r)) l (t_prefix l) r (t_prefix r) e.
    (** is_subset0 mod.rs:961-992 *)
    Fixpoint uis_subset0 (fuel : nat) (l : rtree K V) (lp : list K) (r : rtree K X) (rp : list K) (e : E) : given_back E bool :=
      match fuel with
      | 0 => None
      | S fuel' =>
          then_ (ucommon lp rp e) (fun n e =>
          if (n =? length lp) && (n =? length rp) then
            if (match t_value l, t_value r with None, _ => true | _, Some _ => true | _, _ => false end) then
              then_ (ubool (fun a b e => then_ (uis_subset0 fuel' a (t_prefix a) b (t_prefix b) e)
                                               (fun q e => Some (e, Ret (negb q))))
                           true (t_children l) (t_children r) e)
                    (fun q e => Some (e, Ret (negb q)))
            else Some (e, Ret false)
          else if n =? length lp then
            match t_value l with
            | None => uall (fun lc => uis_subset0 fuel' lc (t_prefix lc) r (skipn n rp)) (t_children l) e
            | Some _ => Some (e, Ret false)
            end
          else if n =? length rp then
            uany (fun rc => uis_subset0 fuel' l (skipn n lp) rc (t_prefix rc)) (t_children r) e
          else Some (e, Ret false))
      end.
    (** is_subset mod.rs:954-959, 631-633 *)
    Definition urt_is_subset (l : rtree K V) (r : rtree K X) (e : E) : given_back E bool :=
      uis_subset0 (S (t_size l + t_size r)) l (t_prefix l) r (t_prefix r) e.
  End Preds.
End User.

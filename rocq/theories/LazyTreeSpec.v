(** Specification for C117: what a program that walks through a plain tree answers, and when memory holds a tree. *)
From Verif Require Export LazyTreeModel.

Section Spec.
  Context {K V : Type}.
  Notation tree := (rtree K V).
  (** what prefix() and value() of the children are *)
  Definition heads (ts : list tree) : list (list K * option V) := map (fun t => (t_prefix t, t_value t)) ts.

  (** a program on plain trees, alone: [env] are the trees it knows *)
  Fixpoint eval {X} (w : walk K V X) (env : list tree) : X :=
    match w with
    | Answer x => x
    | Kids r k =>
        match nth_error env r with
        | Some t => eval (k (Some (heads (t_children t)))) (env ++ t_children t)
        | None => eval (k None) env
        end
    | Copy r k => match nth_error env r with Some t => eval k (env ++ [t]) | None => eval k env end
    end.
  (** the same if loading the children [ts] may panic when [bad ts] *)
  Inductive yields {X} (bad : list tree -> Prop) : walk K V X -> list tree -> X -> Prop :=
  | y_answer x env : yields bad (Answer x) env x
  | y_kids r k env t x : nth_error env r = Some t ->
      yields bad (k (Some (heads (t_children t)))) (env ++ t_children t) x -> yields bad (Kids r k) env x
  | y_panic r k env t x : nth_error env r = Some t -> bad (t_children t) -> yields bad (k None) env x -> yields bad (Kids r k) env x
  | y_none r k env x : nth_error env r = None -> yields bad (k None) env x -> yields bad (Kids r k) env x
  | y_copy r k env t x : nth_error env r = Some t -> yields bad k (env ++ [t]) x -> yields bad (Copy r k) env x
  | y_copy_none r k env x : nth_error env r = None -> yields bad k env x -> yields bad (Copy r k) env x.

  (** memory holds the tree [t] at the node [n], loaded to any degree *)
  Fixpoint shows (m : lmem K V) (n : lnode K V) (t : tree) {struct t} : Prop :=
    let 'Node p v ts := t in
    fst n = (p, v) /\
    match nth_error (m_cells m) (snd n) with
    | Some (MkL _ (inl us)) => us = ts
    | Some (MkL _ (inr a)) =>
        match nth_error (m_vecs m) a with
        | Some ns => (fix all (ns : list (lnode K V)) (ts : list tree) {struct ts} : Prop :=
                        match ts, ns with
                        | [], [] => True
                        | t :: ts', n :: ns' => shows m n t /\ all ns' ts'
                        | _, _ => False
                        end) ns ts
        | None => False
        end
    | None => False
    end.
  (** no mutex is held *)
  Definition unlocked (m : lmem K V) : Prop := forall c x, nth_error (m_cells m) c = Some x -> l_lock x = None.

  (** about to write, about to read the data of the Lazy [c] *)
  Definition lwrites (p : at_ K V) (c : nat) : Prop := exists a, p = Wr c a.
  Definition lreads (p : at_ K V) (c : nat) : Prop := p = Crit c \/ p = Rd c \/ (exists n, p = CCrit n /\ snd n = c).
  Definition answered {X} (t : lthread K V X) (x : X) : Prop := t_walk t = Answer x /\ t_at t = Between.

  (** [get] (mod.rs:619-626, find 699-760) as such a program: [r] is the number of the node, [pv] its prefix and value,
      [next] how many nodes are known *)
  Section Get.
    Context (kcmp : K -> K -> comparison).
    Fixpoint get_walk (fuel : nat) (r next : nat) (pv : list K * option V) (key : list K) : walk K V (res (option V)) :=
      match fuel with
      | 0 => Answer OutOfFuel
      | S fuel' =>
          let n := common_prefix kcmp (fst pv) key in
          let rp := length key - n in
          let rt := length (fst pv) - n in
          if (rp =? 0) && (rt =? 0) then Answer (Ok (snd pv))
          else if rp =? 0 then Answer (Ok None)
          else if rt =? 0 then
            match nth_error key n with
            | None => Answer Panicked
            | Some c =>
                Kids r (fun o =>
                  match o with
                  | None => Answer Panicked
                  | Some hs =>
                      match bsearch (fun e => match fst e with h :: _ => Some (kcmp h c) | [] => None end) hs with
                      | BsOk i => match nth_error hs i with
                                  | Some child => get_walk fuel' (next + i) (next + length hs) child (skipn n key)
                                  | None => Answer Panicked
                                  end
                      | BsErr _ => Answer (Ok None)
                      | BsPanic => Answer Panicked
                      | BsNoFuel => Answer OutOfFuel
                      end
                  end)
            end
          else Answer (Ok None)
      end.
  End Get.
End Spec.

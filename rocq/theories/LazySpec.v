(** Specification of a lazily initialised value, without threads: one cell, one call at a time. *)
From Verif Require Export LazyModel.

Section LazySpec.
  Context {A B : Type} (F : A -> B -> Prop).
  Notation either := (A + B)%type.

  (** one call on a cell holding [d], its result, and what the cell holds afterwards *)
  Inductive call1 : either -> kind * result A B -> either -> Prop :=
  | q_create a b : F a b -> call1 (inl a) (KCreate, RRef b) (inr b)
  | q_panic a : call1 (inl a) (KCreate, RPanicF) (inl a)
  | q_have b : call1 (inr b) (KCreate, RRef b) (inr b)
  | q_get_a a : call1 (inl a) (KGet, RGet None) (inl a)
  | q_get_b b : call1 (inr b) (KGet, RGet (Some b)) (inr b)
  | q_clone d : call1 d (KClone, RClone d) d.
  Inductive calls : either -> list (kind * result A B) -> either -> Prop :=
  | cs_nil d : calls d [] d
  | cs_snoc d l d1 q d2 : calls d l d1 -> call1 d1 q d2 -> calls d (l ++ [q]) d2.

  (** what happened to cell c, in order *)
  Definition effs (c : nat) (tr : list (event A B)) : list (kind * result A B) :=
    flat_map (fun e => match e with Eff _ c' k r => if c' =? c then [(k, r)] else [] | _ => [] end) tr.
  (** the times the function returned normally for cell c *)
  Definition funs (c : nat) (tr : list (event A B)) : list B :=
    flat_map (fun e => match e with Fun _ c' (Some b) => if c' =? c then [b] else [] | _ => [] end) tr.
  (** the calls, effects and returns of thread i, in order *)
  Definition by_thread (i : nat) (tr : list (event A B)) : list (event A B) :=
    filter (fun e => match e with Call j _ _ | Eff j _ _ _ | Ret j _ _ _ => j =? i | _ => false end) tr.
  (** a finished call: called, took effect once, returned what it got then *)
  Definition block (i : nat) (l : list (event A B)) : Prop :=
    exists c k r, l = [Call i c k; Eff i c k r; Ret i c k r].

  (** [d] holds or stands for the content [a] *)
  Definition stands (a : A) (d : either) : Prop := match d with inl a' => a' = a | inr b => F a b end.

  (** the next step of a thread reads or writes the data of cell c *)
  Definition reads (p : pc A B) (c : nat) : Prop :=
    match p with Crit c' _ | Rd c' => c' = c | _ => False end.
  Definition writes (p : pc A B) (c : nat) : Prop := match p with Wr c' _ => c' = c | _ => False end.
  (** own steps left until the call returns, at most *)
  Definition left (p : pc A B) : nat :=
    match p with
    | Idle => 0 | Want _ _ => 6 | Crit _ _ => 5 | Run _ _ => 4 | Wr _ _ => 3
    | RelCreate _ => 2 | Unwind _ | Rd _ | RelGet _ _ | RelClone _ _ => 1
    end.
End LazySpec.

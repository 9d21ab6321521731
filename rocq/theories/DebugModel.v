(** Model of the Debug implementations: src/vec_set.rs:219-223, src/vec_map.rs:141-145,
    src/total_vec_set.rs:76-83, src/total_vec_map.rs:118-125, src/radix_tree/mod.rs:61-62 and
    src/radix_tree/flat_radix_tree.rs:6-11 (both derived), src/radix_tree/flat_radix_tree.rs:92-96,
    on top of a model of the builders of core::fmt (DebugSet, DebugList, DebugTuple, DebugStruct and the
    PadAdapter of [{:#?}]).
    A Debug implementation is a program that writes strings to the writer it is given; the writer
    answers Ok or Err to every write (or panics), and the program goes on with that answer. Text is a
    [string] of characters. The padding, width and precision options of the formatter are only passed
    on to the elements, which may depend on them: they are part of the element's program. *)
From Verif Require Import RadixModel.
From Coq Require Export Ascii String List Bool Arith Lia.
Export ListNotations.
Open Scope string_scope.

(** a program that writes, and returns R; [DThrow]: it panics *)
Inductive dbg (R : Type) : Type :=
| DRet (r : R)
| DThrow
| DWrite (s : string) (k : bool -> dbg R).
Arguments DRet {R}. Arguments DThrow {R}. Arguments DWrite {R}.
Fixpoint dbind {A B} (d : dbg A) (f : A -> dbg B) : dbg B :=
  match d with
  | DRet r => f r
  | DThrow => DThrow
  | DWrite s k => DWrite s (fun ok => dbind (k ok) f)
  end.
(** [fmt::Result]: true is Ok(()), false is Err(fmt::Error) *)
Definition fmt_res := dbg bool.
Definition write_str (s : string) : fmt_res := DWrite s DRet.
(** [x?; y] and [x.and_then(|_| y)] *)
Definition andt (x y : fmt_res) : fmt_res := dbind x (fun ok => if ok then y else DRet false).
Infix ";;" := andt (at level 61, right associativity).

(** the writer: its state, and what it does when asked to write *)
Inductive wres := WOk | WErr | WPanic.
Inductive fres := FOk | FErr | FPanic.
Section Run.
  Context {W : Type} (sink : W -> string -> W * wres).
  Fixpoint run (d : fmt_res) (w : W) : W * fres :=
    match d with
    | DRet true => (w, FOk)
    | DRet false => (w, FErr)
    | DThrow => (w, FPanic)
    | DWrite s k => match sink w s with
                    | (w', WOk) => run (k true) w'
                    | (w', WErr) => run (k false) w'
                    | (w', WPanic) => (w', FPanic)
                    end
    end.
End Run.

Definition nl : ascii := "010"%char.
Definition newline : string := String nl "".
(** [str::split_inclusive('\n')]: the lines with their line ends; no empty last piece *)
Fixpoint split_inclusive (s : string) : list string :=
  match s with
  | "" => []
  | String c s' =>
      if Ascii.eqb c nl then newline :: split_inclusive s'
      else match split_inclusive s' with
           | [] => [String c ""]
           | p :: ps => String c p :: ps
           end
  end.
(** [s.ends_with('\n')] *)
Fixpoint ends_nl (s : string) : bool :=
  match s with "" => false | String c "" => Ascii.eqb c nl | String _ s' => ends_nl s' end.
(** PadAdapter::write_str (core::fmt::builders): [on] is its [on_newline]; the continuation gets the new
    state and the result *)
Fixpoint pad_write {R} (on : bool) (pieces : list string) (k : bool -> bool -> dbg R) : dbg R :=
  match pieces with
  | [] => k on true
  | p :: ps =>
      let go (ok : bool) : dbg R :=
        if ok then DWrite p (fun ok => if ok then pad_write (ends_nl p) ps k else k (ends_nl p) false)
        else k on false in
      if on then DWrite "    " go else go true
  end.
(** a program run on a PadAdapter around the writer; the result comes with the adapter's state *)
Fixpoint pad {R} (on : bool) (d : dbg R) : dbg (bool * R) :=
  match d with
  | DRet r => DRet (on, r)
  | DThrow => DThrow
  | DWrite s k => pad_write on (split_inclusive s) (fun on' ok => pad on' (k ok))
  end.
(** a piece of code with its own, new adapter (on_newline is true at first) *)
Definition padded (d : fmt_res) : fmt_res := dbind (pad true d) (fun r => DRet (snd r)).

(** the Debug of a value: [alt] is true for [{:#?}] *)
Definition debug (T : Type) := bool -> T -> fmt_res.

(** *** The builders *)
Section Builders.
  Context {T : Type} (show : debug T) (alt : bool).
  (** DebugInner::entry, with has_fields [has] and the result so far [r] already Ok *)
  Definition inner_entry (has : bool) (x : T) : fmt_res :=
    if alt then
      (if has then DRet true else write_str newline) ;; padded (show alt x ;; write_str ("," ++ newline))
    else (if has then write_str ", " else DRet true) ;; show alt x.
  (** [entries(iter)]: one [entry] each, whatever the result so far:
      [self.result = self.result.and_then(|_| ...); self.has_fields = true] *)
  Fixpoint inner_entries (has : bool) (r : fmt_res) (l : list T) : fmt_res :=
    match l with
    | [] => r
    | x :: l' => inner_entries true (r ;; inner_entry has x) l'
    end.
  (** [f.debug_set().entries(l).finish()] *)
  Definition debug_set (l : list T) : fmt_res := inner_entries false (write_str "{") l ;; write_str "}".
  (** [f.debug_list().entries(l).finish()] *)
  Definition debug_list (l : list T) : fmt_res := inner_entries false (write_str "[") l ;; write_str "]".
End Builders.

(** a field: its Debug applied to its value and [alt] *)
Section Structs.
  Context (alt : bool).
  (** DebugTuple::field *)
  Definition tuple_field (first : bool) (v : fmt_res) : fmt_res :=
    if alt then (if first then write_str ("(" ++ newline) else DRet true) ;; padded (v ;; write_str ("," ++ newline))
    else write_str (if first then "(" else ", ") ;; v.
  Fixpoint tuple_fields (first : bool) (r : fmt_res) (fs : list fmt_res) : fmt_res :=
    match fs with [] => r | v :: fs' => tuple_fields false (r ;; tuple_field first v) fs' end.
  (** [f.debug_tuple(name)], the fields and [finish()], for at least one field; (a one-element tuple
      without a name, which gets an extra comma, does not occur) *)
  Definition debug_tuple (name : string) (fs : list fmt_res) : fmt_res :=
    tuple_fields true (write_str name) fs ;; write_str ")".
  (** DebugStruct::field *)
  Definition struct_field (first : bool) (name : string) (v : fmt_res) : fmt_res :=
    if alt then
      (if first then write_str (" {" ++ newline) else DRet true) ;;
      padded (write_str name ;; write_str ": " ;; v ;; write_str ("," ++ newline))
    else write_str (if first then " { " else ", ") ;; write_str name ;; write_str ": " ;; v.
  Fixpoint struct_fields (first : bool) (r : fmt_res) (fs : list (string * fmt_res)) : fmt_res :=
    match fs with [] => r | (n, v) :: fs' => struct_fields false (r ;; struct_field first n v) fs' end.
  (** [f.debug_struct(name)], the fields and [finish()], for at least one field *)
  Definition debug_struct (name : string) (fs : list (string * fmt_res)) : fmt_res :=
    struct_fields true (write_str name) fs ;; write_str (if alt then "}" else " }").
  (** [f.debug_struct(name).finish_non_exhaustive()], without fields *)
  Definition debug_opaque (name : string) : fmt_res := write_str name ;; write_str " { .. }".
End Structs.

(** *** The implementations *)
Section Impls.
  Context {T K V : Type} (showT : debug T) (showK : debug K) (showV : debug V).
  (** Debug for the pair (K, V), in core *)
  Definition fmt_pair (alt : bool) (p : K * V) : fmt_res :=
    debug_tuple alt "" [showK alt (fst p); showV alt (snd p)].
  (** Debug for Option<V>, in core *)
  Definition fmt_option (alt : bool) (o : option V) : fmt_res :=
    match o with None => write_str "None" | Some v => debug_tuple alt "Some" [showV alt v] end.
  (** VecSet: src/vec_set.rs:219-223 *)
  Definition fmt_vecset (alt : bool) (s : list T) : fmt_res := debug_set showT alt s.
  (** VecMap: src/vec_map.rs:141-145. [T] is the entry, a pair *)
  Definition fmt_vecmap (alt : bool) (m : list (K * V)) : fmt_res := debug_set fmt_pair alt m.
  (** TotalVecSet: src/total_vec_set.rs:76-83. [write_char('!')] writes the string "!" *)
  Definition fmt_total_set (alt : bool) (s : list T * bool) : fmt_res :=
    if snd s then write_str "!" ;; debug_set showT alt (fst s) else debug_set showT alt (fst s).
  (** TotalVecMap: src/total_vec_map.rs:118-125 *)
  Definition fmt_total_map (alt : bool) (m : list (K * V) * V) : fmt_res :=
    debug_struct alt "TotalVecMap" [("values", fmt_vecmap alt (fst m)); ("default", showV alt (snd m))].
  (** Fragment: src/radix_tree/mod.rs:61-62, derived; the Debug of SmallVec is that of a list *)
  Definition fmt_fragment (alt : bool) (p : list K) : fmt_res :=
    debug_tuple alt "Fragment" [debug_list showK alt p].
  (** RadixTree: src/radix_tree/flat_radix_tree.rs:6-11, derived *)
  Fixpoint fmt_tree (alt : bool) (t : rtree K V) {struct t} : fmt_res :=
    match t with
    | Node p v c =>
        debug_struct alt "RadixTree"
          [("prefix", fmt_fragment alt p); ("value", fmt_option alt v);
           ("children", debug_list (fun alt' t' => fmt_tree alt' t') alt c)]
    end.
  (** IterKey: src/radix_tree/mod.rs:788-789, derived; the Debug of an Arc is that of its content *)
  Definition fmt_iter_key (alt : bool) (k : list K) : fmt_res := debug_tuple alt "IterKey" [debug_list showK alt k].
  (** ArchivedRadixTree: src/radix_tree/flat_radix_tree.rs:92-96 *)
  Definition fmt_archived_tree {A : Type} (alt : bool) (t : A) : fmt_res := debug_opaque "ArchivedRadixTree".
End Impls.

(** Property C130: what [{:?}] and [{:#?}] write. *)
From Verif Require Import RadixModel RadixFacts DebugModel.
From Coq Require Import DecimalString DecimalNat Decimal.

(** *** Specification *)
(** a value with text t, written in some pieces: after an Err nothing more is written, and Err comes back *)
Fixpoint writes (pieces : list string) : fmt_res :=
  match pieces with
  | [] => DRet true
  | p :: ps => DWrite p (fun ok => if ok then writes ps else DRet false)
  end.
(** two programs that make the same writes and go on alike after every answer *)
Inductive alike {R} : dbg R -> dbg R -> Prop :=
| al_ret r : alike (DRet r) (DRet r)
| al_throw : alike DThrow DThrow
| al_write s k k' : (forall ok, alike (k ok) (k' ok)) -> alike (DWrite s k) (DWrite s k').
Definition prints (d : fmt_res) (t : string) : Prop := exists ps, String.concat "" ps = t /\ alike d (writes ps).

Fixpoint commas (ts : list string) : string :=
  match ts with [] => "" | [t] => t | t :: ts' => t ++ ", " ++ commas ts' end.
(** four blanks before the first character of every line ([start]: at the start of a line) *)
Fixpoint indent (start : bool) (s : string) : string :=
  match s with
  | "" => ""
  | String c s' => (if start then "    " else "") ++ String c (indent (Ascii.eqb c "010"%char) s')
  end.
(** one indented line (or more) per item, with a comma *)
Definition lines (ts : list string) : string :=
  String.concat "" (map (fun t => indent true (t ++ "," ++ newline)) ts).
(** items between an opening and a closing bracket *)
Definition items_text (alt : bool) (op cl : string) (ts : list string) : string :=
  match ts, alt with
  | [], _ => op ++ cl
  | _, false => op ++ commas ts ++ cl
  | _, true => op ++ newline ++ lines ts ++ cl
  end.
Definition set_text (alt : bool) (ts : list string) : string := items_text alt "{" "}" ts.
Definition list_text (alt : bool) (ts : list string) : string := items_text alt "[" "]" ts.
Definition tuple_text (alt : bool) (name : string) (ts : list string) : string :=
  name ++ items_text alt "(" ")" ts.
Definition struct_text (alt : bool) (name : string) (fs : list (string * string)) : string :=
  name ++ items_text alt (if alt then " {" else " { ") (if alt then "}" else " }")
            (map (fun p => fst p ++ ": " ++ snd p) fs).

(** the text of the elements, possibly different in the two modes *)
Definition shows {T} (show : debug T) (text : bool -> T -> string) : Prop :=
  forall alt x, prints (show alt x) (text alt x).
Section Texts.
  Context {T K V : Type} (textT : bool -> T -> string) (textK : bool -> K -> string) (textV : bool -> V -> string).
  Definition pair_text (alt : bool) (p : K * V) : string :=
    tuple_text alt "" [textK alt (fst p); textV alt (snd p)].
  Definition option_text (alt : bool) (o : option V) : string :=
    match o with None => "None" | Some v => tuple_text alt "Some" [textV alt v] end.
  Definition vecset_text (alt : bool) (s : list T) : string := set_text alt (map (textT alt) s).
  Definition vecmap_text (alt : bool) (m : list (K * V)) : string := set_text alt (map (pair_text alt) m).
  Definition total_set_text (alt : bool) (s : list T * bool) : string :=
    (if snd s then "!" else "") ++ vecset_text alt (fst s).
  Definition total_map_text (alt : bool) (m : list (K * V) * V) : string :=
    struct_text alt "TotalVecMap" [("values", vecmap_text alt (fst m)); ("default", textV alt (snd m))].
  Fixpoint tree_text (alt : bool) (t : rtree K V) : string :=
    match t with
    | Node p v c =>
        struct_text alt "RadixTree"
          [("prefix", tuple_text alt "Fragment" [list_text alt (map (textK alt) p)]);
           ("value", option_text alt v); ("children", list_text alt (map (tree_text alt) c))]
    end.
  Definition iter_key_text (alt : bool) (k : list K) : string :=
    tuple_text alt "IterKey" [list_text alt (map (textK alt) k)].
End Texts.

(** *** Facts *)
Lemma app_assoc_s (a b c : string) : (a ++ b) ++ c = a ++ b ++ c.
Proof. induction a as [|x a IH]; [reflexivity|]. change (String x ((a ++ b) ++ c) = String x (a ++ b ++ c)). now rewrite IH. Qed.
Lemma app_nil_s (a : string) : a ++ "" = a.
Proof. induction a as [|x a IH]; [reflexivity|]. change (String x (a ++ "") = String x a). now rewrite IH. Qed.
Lemma concat_cons (p : string) ps : String.concat "" (p :: ps) = p ++ String.concat "" ps.
Proof. destruct ps as [|q ps]; [cbn [String.concat]; now rewrite app_nil_s|reflexivity]. Qed.
Lemma concat_app_s ps qs : String.concat "" (ps ++ qs)%list = String.concat "" ps ++ String.concat "" qs.
Proof.
  induction ps as [|p ps IH]; [reflexivity|].
  rewrite <- app_comm_cons, !concat_cons, IH. symmetry. apply app_assoc_s.
Qed.

Lemma alike_refl {R} (d : dbg R) : alike d d.
Proof. induction d as [r| |s k IH]; constructor; auto. Qed.
Lemma alike_sym {R} (d e : dbg R) : alike d e -> alike e d.
Proof. induction 1; constructor; auto. Qed.
Lemma alike_trans {R} (a b c : dbg R) : alike a b -> alike b c -> alike a c.
Proof.
  intros H. revert c. induction H as [r| |s k k' H IH]; intros c H2; [exact H2|exact H2|].
  inversion H2 as [| |s' k1 k2 H3 Q1 Q2]; subst. constructor. intros ok. apply IH, H3.
Qed.
Lemma alike_bind {A B} (a a' : dbg A) (f f' : A -> dbg B) :
  alike a a' -> (forall r, alike (f r) (f' r)) -> alike (dbind a f) (dbind a' f').
Proof. intros H Hf. induction H; cbn [dbind]; [apply Hf|constructor|constructor; auto]. Qed.
Lemma alike_assoc {A B C} (a : dbg A) (f : A -> dbg B) (g : B -> dbg C) :
  alike (dbind (dbind a f) g) (dbind a (fun r => dbind (f r) g)).
Proof. induction a as [r| |s k IH]; cbn [dbind]; [apply alike_refl|constructor|constructor; auto]. Qed.
Lemma alike_andt a a' b b' : alike a a' -> alike b b' -> alike (a ;; b) (a' ;; b').
Proof. intros Ha Hb. apply alike_bind; [exact Ha|]. intros [|]; [exact Hb|constructor]. Qed.
Lemma andt_assoc a b c : alike ((a ;; b) ;; c) (a ;; b ;; c).
Proof.
  eapply alike_trans; [apply alike_assoc|]. apply alike_bind; [apply alike_refl|]. intros [|]; apply alike_refl.
Qed.
Lemma ok_andt a : alike (DRet true ;; a) a.
Proof. apply alike_refl. Qed.
Lemma writes_app ps qs : alike (writes ps ;; writes qs) (writes (ps ++ qs)).
Proof.
  induction ps as [|p ps IH]; [apply alike_refl|]. constructor. intros [|]; [apply IH|constructor].
Qed.
Lemma run_alike {W} (sink : W -> string -> W * wres) d d' : alike d d' -> forall w, run sink d w = run sink d' w.
Proof.
  induction 1 as [r| |s k k' H IH]; intros w; [reflexivity|reflexivity|].
  cbn [run]. destruct (sink w s) as [w' [| |]]; auto.
Qed.

Lemma prints_alike d d' t : alike d d' -> prints d' t -> prints d t.
Proof. intros H (ps & Q & H2). exists ps. split; [exact Q|]. eapply alike_trans; eassumption. Qed.
Lemma prints_write s : prints (write_str s) s.
Proof. exists [s]. split; [reflexivity|]. constructor. intros [|]; constructor. Qed.
Lemma prints_ok : prints (DRet true) "".
Proof. exists []. split; [reflexivity|constructor]. Qed.
Lemma prints_andt d e s t : prints d s -> prints e t -> prints (d ;; e) (s ++ t).
Proof.
  intros (ps & Q & H) (qs & Q2 & H2). exists (ps ++ qs)%list. split; [rewrite concat_app_s; congruence|].
  eapply alike_trans; [exact (alike_andt _ _ _ _ H H2)|apply writes_app].
Qed.

(** the adapter *)
Fixpoint at_start (on : bool) (s : string) : bool :=
  match s with "" => on | String c s' => at_start (Ascii.eqb c nl) s' end.
Lemma indent_app on s t : indent on (s ++ t) = indent on s ++ indent (at_start on s) t.
Proof.
  revert on. induction s as [|c s IH]; intros on; [reflexivity|].
  change (indent on (String c (s ++ t)) = indent on (String c s) ++ indent (at_start (Ascii.eqb c nl) s) t).
  cbn [indent]. rewrite IH, !app_assoc_s. reflexivity.
Qed.
Lemma at_start_app on s t : at_start on (s ++ t) = at_start (at_start on s) t.
Proof. revert on. induction s as [|c s IH]; intros on; [reflexivity|]. cbn [append at_start]. apply IH. Qed.
(** what the adapter writes for one string *)
Fixpoint padp (on : bool) (ls : list string) : list string :=
  match ls with
  | [] => []
  | p :: ps => (if on then ["    "] else []) ++ p :: padp (ends_nl p) ps
  end%list.
Fixpoint pad_end (on : bool) (ls : list string) : bool :=
  match ls with [] => on | p :: ps => pad_end (ends_nl p) ps end.
(** a piece of split_inclusive: one line *)
Definition line (p : string) : Prop := exists l, ~ In nl (list_ascii_of_string l) /\ (p = l ++ newline \/ p = l /\ l <> "").
Lemma ends_nl_cons c s : s <> "" -> ends_nl (String c s) = ends_nl s.
Proof. destruct s; [congruence|reflexivity]. Qed.
Lemma split_cons c s : split_inclusive (String c s) =
  if Ascii.eqb c nl then newline :: split_inclusive s
  else match split_inclusive s with [] => [String c ""] | p :: ps => String c p :: ps end.
Proof. reflexivity. Qed.
Lemma split_nonempty s : Forall (fun p => p <> "") (split_inclusive s).
Proof.
  induction s as [|c s IH]; [constructor|]. rewrite split_cons. destruct (Ascii.eqb c nl); [constructor; [discriminate|exact IH]|].
  destruct (split_inclusive s) as [|p ps]; [constructor; [discriminate|constructor]|].
  inversion IH; subst. constructor; [discriminate|assumption].
Qed.
Lemma pad_split s : forall on,
  String.concat "" (padp on (split_inclusive s)) = indent on s /\ pad_end on (split_inclusive s) = at_start on s.
Proof.
  induction s as [|c s IH]; intros on; [split; reflexivity|]. rewrite split_cons. cbn [indent at_start].
  change "010"%char with nl. destruct (Ascii.eqb c nl) eqn:E.
  - apply Ascii.eqb_eq in E. subst c. cbn [padp pad_end]. destruct (IH true) as [A B].
    change (ends_nl newline) with true. split; [|exact B].
    rewrite concat_app_s, concat_cons, A. destruct on; reflexivity.
  - destruct (IH false) as [A B]. pose proof (split_nonempty s) as NE.
    destruct (split_inclusive s) as [|p ps] eqn:Q.
    + assert (N : s = "").
      { destruct s as [|d s]; [reflexivity|]. rewrite split_cons in Q.
        destruct (Ascii.eqb d nl); [discriminate|]. destruct (split_inclusive s); discriminate. }
      subst s. cbn [padp pad_end indent at_start ends_nl]. rewrite E. split; [destruct on; reflexivity|reflexivity].
    + inversion NE as [|? ? N _]; subst. cbn [padp pad_end] in *.
      rewrite (ends_nl_cons c p N). split; [|exact B]. rewrite !concat_app_s, !concat_cons in A |- *.
      change (p ++ String.concat "" (padp (ends_nl p) ps) = indent false s) in A.
      rewrite <- A. destruct on; reflexivity.
Qed.
Definition padbind {R} (d : dbg (bool * R)) : dbg R := dbind d (fun r => DRet (snd r)).
Lemma pad_write_spec (ls : list string) (k : bool -> bool -> dbg (bool * bool)) (ps : list string) : forall on,
  (alike (padbind (k (pad_end on ls) true)) (writes ps)) ->
  (forall on', alike (padbind (k on' false)) (DRet false)) ->
  alike (padbind (pad_write on ls k)) (writes (padp on ls ++ ps)).
Proof.
  induction ls as [|p ls IH]; intros on H1 H2; [exact H1|].
  cbn [pad_end] in H1. specialize (IH (ends_nl p) H1 H2).
  assert (G : alike (padbind (DWrite p (fun ok => if ok then pad_write (ends_nl p) ls k else k (ends_nl p) false)))
                    (writes (p :: padp (ends_nl p) ls ++ ps))).
  { constructor. intros [|]; [exact IH|apply H2]. }
  cbn [pad_write padp]. destruct on; [|exact G].
  constructor. intros [|]; [exact G|apply H2].
Qed.
Lemma pad_writes ps : forall on,
  exists qs, String.concat "" qs = indent on (String.concat "" ps) /\ alike (padbind (pad on (writes ps))) (writes qs).
Proof.
  induction ps as [|p ps IH]; intros on; [exists []; split; [reflexivity|constructor]|].
  destruct (pad_split p on) as [A B]. destruct (IH (at_start on p)) as (qs & Q & H).
  exists (padp on (split_inclusive p) ++ qs)%list. split.
  - rewrite concat_app_s, A, Q, concat_cons, indent_app. reflexivity.
  - cbn [writes pad]. apply pad_write_spec; [rewrite B; exact H|]. intros on'. constructor.
Qed.
Lemma pad_alike {R} (d d' : dbg R) : alike d d' -> forall on, alike (pad on d) (pad on d').
Proof.
  induction 1 as [r| |s k k' H IH]; intros on; cbn [pad]; [constructor|constructor|].
  revert on. induction (split_inclusive s) as [|p ps IHp]; intros on; cbn [pad_write]; [apply IH|].
  destruct on; repeat (constructor; intros [|]); auto.
Qed.
Lemma padded_alike d d' : alike d d' -> alike (padded d) (padded d').
Proof. intros H. apply alike_bind; [now apply pad_alike|intros r; apply alike_refl]. Qed.
Lemma prints_padded d t : prints d t -> prints (padded d) (indent true t).
Proof.
  intros (ps & Q & H). destruct (pad_writes ps true) as (qs & Q2 & H2). exists qs.
  split; [now rewrite Q2, Q|]. eapply alike_trans; [exact (padded_alike _ _ H)|exact H2].
Qed.

(** the builders *)
Definition entry_text (alt first : bool) (t : string) : string :=
  if alt then (if first then newline else "") ++ indent true (t ++ "," ++ newline)
  else (if first then "" else ", ") ++ t.
Fixpoint entries_text (alt first : bool) (ts : list string) : string :=
  match ts with [] => "" | t :: ts' => entry_text alt first t ++ entries_text alt false ts' end.
Lemma entries_lines ts : entries_text true false ts = lines ts.
Proof.
  unfold lines. induction ts as [|t ts IH]; [reflexivity|].
  cbn [entries_text map]. rewrite concat_cons, IH. reflexivity.
Qed.
Lemma entries_commas t ts : entries_text false true (t :: ts) = commas (t :: ts).
Proof.
  revert t. induction ts as [|u ts IH]; intros t; [cbn; now rewrite app_nil_s|].
  change (commas (t :: u :: ts)) with (t ++ ", " ++ commas (u :: ts)). rewrite <- IH.
  cbn [entries_text entry_text]. rewrite !app_assoc_s. reflexivity.
Qed.
Lemma items_entries alt op cl ts : items_text alt op cl ts = op ++ entries_text alt true ts ++ cl.
Proof.
  destruct ts as [|t ts]; [destruct alt; reflexivity|]. destruct alt; cbn [items_text].
  - change (entries_text true true (t :: ts)) with (entry_text true true t ++ entries_text true false ts).
    rewrite entries_lines. unfold lines. cbn [map]. rewrite concat_cons. unfold entry_text.
    rewrite !app_assoc_s. reflexivity.
  - now rewrite entries_commas.
Qed.

Section Items.
  Context {T : Type} (show : debug T) (text : T -> string) (alt : bool).
  Lemma prints_entry has x : prints (show alt x) (text x) -> prints (inner_entry show alt has x) (entry_text alt (negb has) (text x)).
  Proof.
    intros H. unfold inner_entry, entry_text. destruct alt.
    - apply prints_andt; [destruct has; [apply prints_ok|apply prints_write]|].
      apply prints_padded, prints_andt; [exact H|apply prints_write].
    - apply prints_andt; [destruct has; [apply prints_write|apply prints_ok]|exact H].
  Qed.
  Lemma prints_entries l : Forall (fun x => prints (show alt x) (text x)) l -> forall has r t, prints r t ->
    prints (inner_entries show alt has r l) (t ++ entries_text alt (negb has) (map text l)).
  Proof.
    induction 1 as [|x l Hx Hl IH]; intros has r t Hr; cbn [inner_entries map entries_text].
    - now rewrite app_nil_s.
    - rewrite <- app_assoc_s. apply (IH true). apply prints_andt; [exact Hr|now apply prints_entry].
  Qed.
  Lemma prints_set l : Forall (fun x => prints (show alt x) (text x)) l ->
    prints (debug_set show alt l) (set_text alt (map text l)).
  Proof.
    intros H. unfold set_text. rewrite items_entries, <- app_assoc_s.
    apply prints_andt; [|apply prints_write]. apply (prints_entries l H false), prints_write.
  Qed.
  Lemma prints_list l : Forall (fun x => prints (show alt x) (text x)) l ->
    prints (debug_list show alt l) (list_text alt (map text l)).
  Proof.
    intros H. unfold list_text. rewrite items_entries, <- app_assoc_s.
    apply prints_andt; [|apply prints_write]. apply (prints_entries l H false), prints_write.
  Qed.
End Items.
Lemma prints_tuple alt name fs ts : fs <> [] -> Forall2 prints fs ts -> prints (debug_tuple alt name fs) (tuple_text alt name ts).
Proof.
  intros N H. unfold tuple_text. rewrite items_entries.
  assert (G : forall first r t, prints r t -> prints (tuple_fields alt first r fs)
    (t ++ (if first then match ts with [] => "" | _ => "(" end else "") ++ entries_text alt first ts)).
  { clear N. induction H as [|d u fs us Hd H IH]; intros first r t Hr; cbn [tuple_fields entries_text].
    - destruct first; cbn; now rewrite app_nil_s.
    - assert (G : prints (r ;; tuple_field alt first d) (t ++ (if first then "(" else "") ++ entry_text alt first u)).
      { apply prints_andt; [exact Hr|]. unfold tuple_field, entry_text. destruct alt.
        - destruct first.
          + rewrite <- app_assoc_s. apply prints_andt; [apply prints_write|].
            apply prints_padded, prints_andt; [exact Hd|apply prints_write].
          + apply (prints_andt _ _ ""); [apply prints_ok|].
            apply prints_padded, prints_andt; [exact Hd|apply prints_write].
        - destruct first; [exact (prints_andt _ _ _ _ (prints_write "(") Hd)|exact (prints_andt _ _ _ _ (prints_write ", ") Hd)]. }
      specialize (IH false _ _ G). cbn [append] in IH. rewrite !app_assoc_s in IH. exact IH. }
  specialize (G true _ _ (prints_write name)).
  destruct H as [|d u fs us Hd H]; [congruence|].
  rewrite <- !app_assoc_s. apply prints_andt; [|apply prints_write]. rewrite !app_assoc_s. exact G.
Qed.
Lemma prints_struct alt name fs ts : fs <> [] -> Forall2 (fun f t => fst f = fst t /\ prints (snd f) (snd t)) fs ts ->
  prints (debug_struct alt name fs) (struct_text alt name ts).
Proof.
  intros N H. unfold struct_text. rewrite items_entries.
  set (g := fun p : string * string => fst p ++ ": " ++ snd p).
  assert (G : forall first r t, prints r t -> prints (struct_fields alt first r fs)
    (t ++ (if first then match ts with [] => "" | _ => if alt then " {" else " { " end else "")
       ++ entries_text alt first (map g ts))).
  { clear N. induction H as [|[n d] [n' u] fs us [Hn Hd] H IH]; intros first r t Hr; cbn [struct_fields entries_text map].
    - destruct first; cbn; now rewrite app_nil_s.
    - cbn [fst snd] in Hn, Hd. subst n'.
      assert (G : prints (r ;; struct_field alt first n d)
        (t ++ (if first then (if alt then " {" else " { ") else "") ++ entry_text alt first (g (n, u)))).
      { apply prints_andt; [exact Hr|]. unfold struct_field, entry_text, g. cbn [fst snd].
        assert (F : prints (write_str n ;; write_str ": " ;; d) (n ++ ": " ++ u))
          by (apply prints_andt; [apply prints_write|]; apply prints_andt; [apply prints_write|exact Hd]).
        destruct alt.
        - assert (F2 : prints (padded (write_str n ;; write_str ": " ;; d ;; write_str ("," ++ newline)))
                              (indent true ((n ++ ": " ++ u) ++ "," ++ newline))).
          { apply prints_padded. rewrite !app_assoc_s. apply prints_andt; [apply prints_write|].
            apply prints_andt; [apply prints_write|]. apply prints_andt; [exact Hd|apply prints_write]. }
          destruct first.
          + rewrite <- app_assoc_s. apply prints_andt; [apply prints_write|exact F2].
          + apply (prints_andt _ _ ""); [apply prints_ok|exact F2].
        - destruct first; [exact (prints_andt _ _ _ _ (prints_write " { ") F)|exact (prints_andt _ _ _ _ (prints_write ", ") F)]. }
      specialize (IH false _ _ G). cbn [append] in IH. rewrite !app_assoc_s in IH. exact IH. }
  specialize (G true _ _ (prints_write name)).
  destruct H as [|d u fs us Hd H]; [congruence|].
  rewrite <- !app_assoc_s. apply prints_andt; [|apply prints_write]. rewrite !app_assoc_s. exact G.
Qed.
Lemma prints_pair {K V} (showK : debug K) (showV : debug V) textK textV :
  shows showK textK -> shows showV textV -> shows (fmt_pair showK showV) (pair_text textK textV).
Proof.
  intros HK HV alt p. apply prints_tuple; [discriminate|]. constructor; [apply HK|]. constructor; [apply HV|constructor].
Qed.
Lemma Forall_all {T} (P : T -> Prop) l : (forall x, P x) -> Forall P l.
Proof. intros H. apply Forall_forall. auto. Qed.

(** *** The text *)
(** Whatever the writer, Debug of the collections writes exactly the text below, piece by piece,
    provided the elements write their texts: [{a, b}], ["!{a, b}"] for the complement of a set,
    [{(k, v), (k, v)}], [TotalVecMap { values: {(k, v)}, default: d }], and for [{:#?}] one indented item
    per line with a trailing comma. *)
Theorem C130_text : forall (T K V : Type) (showT : debug T) (showK : debug K) (showV : debug V) textT textK textV,
  shows showT textT -> shows showK textK -> shows showV textV ->
  shows (fmt_vecset showT) (vecset_text textT) /\
  shows (fmt_vecmap showK showV) (vecmap_text textK textV) /\
  shows (fmt_total_set showT) (total_set_text textT) /\
  shows (fmt_total_map showK showV) (total_map_text textK textV) /\
  shows (fmt_tree showK showV) (tree_text textK textV) /\
  shows (fmt_iter_key showK) (iter_key_text textK).
Proof.
  intros T K V showT showK showV textT textK textV HT HK HV.
  assert (M : shows (fmt_vecmap showK showV) (vecmap_text textK textV)).
  { intros alt m. apply prints_set, Forall_all. intros p. now apply prints_pair. }
  assert (LK : forall alt p, prints (debug_list showK alt p) (list_text alt (map (textK alt) p))).
  { intros alt p. apply prints_list, Forall_all. intros k. apply HK. }
  split; [|split; [|split; [|split; [|split]]]].
  - intros alt s. apply prints_set, Forall_all. intros x. apply HT.
  - exact M.
  - intros alt [s n]. unfold fmt_total_set, total_set_text. cbn [fst snd]. destruct n.
    + apply prints_andt; [apply prints_write|]. apply prints_set, Forall_all. intros x. apply HT.
    + apply prints_set, Forall_all. intros x. apply HT.
  - intros alt [m d]. apply prints_struct; [discriminate|].
    constructor; [split; [reflexivity|apply M]|]. constructor; [split; [reflexivity|apply HV]|constructor].
  - intros alt. fix IH 1. intros [p v c]. cbn [fmt_tree tree_text]. apply prints_struct; [discriminate|].
    constructor; [split; [reflexivity|]|constructor; [split; [reflexivity|]|constructor; [split; [reflexivity|]|constructor]]];
      cbn [fst snd].
    + apply prints_tuple; [discriminate|]. constructor; [apply LK|constructor].
    + destruct v as [v|]; [|apply prints_write]. apply prints_tuple; [discriminate|]. constructor; [apply HV|constructor].
    + apply (prints_list (fun alt' t' => fmt_tree showK showV alt' t') (tree_text textK textV alt) alt).
      induction c as [|t c IHc]; [constructor|]. constructor; [apply IH|exact IHc].
  - intros alt k. apply prints_tuple; [discriminate|]. constructor; [apply LK|constructor].
Qed.

(** *** The writer *)
(** a writer whose calls are recorded *)
Definition recorded {W} (sink : W -> string -> W * wres) : W * list (string * wres) -> string -> (W * list (string * wres)) * wres :=
  fun w s => let (w', a) := sink (fst w) s in ((w', (snd w ++ [(s, a)])%list), a).
Definition result_of (a : wres) : fres := match a with WOk => FOk | WErr => FErr | WPanic => FPanic end.

(** A text is written in order and once; the first refusal (or panic) of the writer ends the writing and
    comes back to the caller. *)
Theorem C130_writers : forall (d : fmt_res) (t : string), prints d t ->
  (forall w, run (fun w s => (w ++ s, WOk)) d w = (w ++ t, FOk)) /\
  forall (W : Type) (sink : W -> string -> W * wres) w log w' log' r,
    run (recorded sink) d (w, log) = ((w', log'), r) ->
    exists calls, log' = (log ++ calls)%list /\
      ((r = FOk /\ Forall (fun c => snd c = WOk) calls /\ String.concat "" (map fst calls) = t) \/
       (exists before s a rest, calls = (before ++ [(s, a)])%list /\ Forall (fun c => snd c = WOk) before /\
          a <> WOk /\ r = result_of a /\ t = String.concat "" (map fst before) ++ s ++ rest)).
Proof.
  intros d t (ps & Q & H). split.
  - intros w. rewrite (run_alike _ _ _ H). revert t Q w. clear H.
    induction ps as [|p ps IH]; intros t Q w; [cbn in Q; subst t; cbn; now rewrite app_nil_s|].
    cbn [writes run]. rewrite concat_cons in Q. rewrite (IH _ eq_refl), app_assoc_s, Q. reflexivity.
  - intros W sink w log w' log' r E. rewrite (run_alike _ _ _ H) in E. clear H.
    revert t Q w log E. induction ps as [|p ps IH]; intros t Q w log E.
    + cbn [writes run] in E. injection E as <- <- <-. exists []. split; [now rewrite app_nil_r|].
      left. split; [reflexivity|]. split; [constructor|exact Q].
    + cbn [writes run] in E. unfold recorded at 1 in E. cbn [fst snd] in E.
      destruct (sink w p) as [w1 a] eqn:S. rewrite concat_cons in Q. destruct a.
      * destruct (IH _ eq_refl _ _ E) as (calls & L & D). exists ((p, WOk) :: calls).
        split; [rewrite L, <- app_assoc; reflexivity|].
        destruct D as [(R & F & C)|(before & s & a & rest & C & F & N & R & T)].
        -- left. split; [exact R|]. split; [constructor; [reflexivity|exact F]|].
           cbn [map]. rewrite concat_cons. cbn [fst]. now rewrite C.
        -- right. exists ((p, WOk) :: before), s, a, rest. split; [now rewrite C|].
           split; [constructor; [reflexivity|exact F]|]. split; [exact N|]. split; [exact R|].
           cbn [map]. rewrite concat_cons, app_assoc_s. cbn [fst]. rewrite <- T. now symmetry.
      * cbn [run] in E. injection E as <- <- <-. exists [(p, WErr)]. split; [reflexivity|]. right.
        exists [], p, WErr, (String.concat "" ps). split; [reflexivity|]. split; [constructor|].
        split; [discriminate|]. split; [reflexivity|]. now symmetry.
      * injection E as <- <- <-. exists [(p, WPanic)]. split; [reflexivity|]. right.
        exists [], p, WPanic, (String.concat "" ps). split; [reflexivity|]. split; [constructor|].
        split; [discriminate|]. split; [reflexivity|]. now symmetry.
Qed.

(** *** Elements whose Debug fails or panics *)
(** programs run one after the other, up to the first that does not return Ok *)
Fixpoint in_turn {W} (sink : W -> string -> W * wres) (ds : list fmt_res) (w : W) : W * fres :=
  match ds with
  | [] => (w, FOk)
  | d :: ds' => match run sink d w with
                | (w', FOk) => in_turn sink ds' w'
                | (w', r) => (w', r)
                end
  end.
Fixpoint separated (sep : fmt_res) (ds : list fmt_res) : list fmt_res :=
  match ds with [] => [] | [d] => [d] | d :: ds' => d :: sep :: separated sep ds' end.
(** [{:?}], then [{:#?}] *)
Definition set_steps {T} (show : debug T) (alt : bool) (l : list T) : list fmt_res :=
  if alt then
    write_str "{" :: (match l with [] => [] | _ => [write_str newline] end
      ++ map (fun x => padded (show true x ;; write_str ("," ++ newline))) l ++ [write_str "}"])%list
  else (write_str "{" :: separated (write_str ", ") (map (show false) l) ++ [write_str "}"])%list.

Lemma run_andt {W} (sink : W -> string -> W * wres) d e w :
  run sink (d ;; e) w = match run sink d w with (w', FOk) => run sink e w' | (w', r) => (w', r) end.
Proof.
  revert w. induction d as [[|]| |s k IH]; intros w; [reflexivity..|].
  change (DWrite s k ;; e) with (DWrite s (fun ok => k ok ;; e)). cbn [run].
  destruct (sink w s) as [w' [| |]]; [apply IH|apply IH|reflexivity].
Qed.
Lemma in_turn_app {W} (sink : W -> string -> W * wres) ds es w :
  in_turn sink (ds ++ es)%list w =
  match in_turn sink ds w with (w', FOk) => in_turn sink es w' | (w', r) => (w', r) end.
Proof.
  revert w. induction ds as [|d ds IH]; intros w; [reflexivity|]. cbn [List.app in_turn].
  destruct (run sink d w) as [w' [| |]]; [apply IH|reflexivity..].
Qed.
Lemma separated_app {W} (sink : W -> string -> W * wres) sep ds es w : forall d,
  in_turn sink (separated sep (d :: ds) ++ es)%list w =
  in_turn sink (d :: flat_map (fun x => [sep; x]) ds ++ es)%list w.
Proof.
  revert w. induction ds as [|x ds IH]; intros w d; [reflexivity|].
  change (separated sep (d :: x :: ds)) with (d :: sep :: separated sep (x :: ds)).
  cbn [List.app flat_map in_turn].
  destruct (run sink d w) as [w1 [| |]]; [|reflexivity..].
  destruct (run sink sep w1) as [w2 [| |]]; [|reflexivity..]. apply IH.
Qed.

Theorem C130_elements : forall (T W : Type) (show : debug T) (sink : W -> string -> W * wres) alt l w,
  run sink (fmt_vecset show alt l) w = in_turn sink (set_steps show alt l) w /\
  run sink (fmt_total_set show alt (l, true)) w = in_turn sink (write_str "!" :: set_steps show alt l) w /\
  run sink (fmt_total_set show alt (l, false)) w = in_turn sink (set_steps show alt l) w.
Proof.
  intros T W show sink alt l w.
  assert (G : forall w, run sink (fmt_vecset show alt l) w = in_turn sink (set_steps show alt l) w).
  2: { split; [apply G|]. split; [|apply G]. unfold fmt_total_set. cbn [fst snd]. rewrite run_andt.
       cbn [in_turn]. destruct (run sink (write_str "!") w) as [w' [| |]]; [apply G|reflexivity..]. }
  clear w. intros w.
  assert (I : forall l has r w, run sink (inner_entries show alt has r l ;; write_str "}") w =
    in_turn sink (r :: flat_map (fun x => if alt then [padded (show true x ;; write_str ("," ++ newline))]
                                          else [write_str ", "; show false x])
                          (if has then l else [])
                   ++ (if has then [] else match l with
                        | [] => []
                        | x :: l' => if alt then
                             write_str newline :: map (fun x => padded (show true x ;; write_str ("," ++ newline))) l
                           else show false x :: flat_map (fun x => [write_str ", "; show false x]) l' end)
                   ++ [write_str "}"])%list w).
  { clear l w. induction l as [|x l IH]; intros has r w.
    - cbn [inner_entries]. rewrite run_andt. destruct has; cbn [flat_map List.app in_turn];
        destruct (run sink r w) as [w' [| |]]; try reflexivity;
        destruct (run sink (write_str "}") w') as [w2 [| |]]; reflexivity.
    - cbn [inner_entries]. rewrite (IH true). cbn [in_turn]. rewrite run_andt. unfold inner_entry.
      destruct alt, has; cbn [flat_map List.app in_turn map]; rewrite ?run_andt; cbn [run];
        destruct (run sink r w) as [w1 [| |]]; try reflexivity.
      all: rewrite run_andt; cbn [run]; try reflexivity.
      2: destruct (run sink (write_str ", ") w1) as [w2 [| |]]; reflexivity.
      destruct (run sink (write_str newline) w1) as [w2 [| |]]; reflexivity. }
  unfold fmt_vecset, debug_set. rewrite (I l false). unfold set_steps. cbn [flat_map List.app].
  destruct l as [|x l]; [destruct alt; reflexivity|]. destruct alt; [reflexivity|].
  cbn [in_turn]. destruct (run sink (write_str "{") w) as [w' [| |]]; try reflexivity.
  cbn [map]. rewrite separated_app. f_equal. cbn [List.app]. f_equal. f_equal.
  clear. induction l as [|y l IH]; [reflexivity|]. cbn [flat_map map List.app]. now rewrite IH.
Qed.

(** *** Reading the text back *)
(** the characters that may follow an item *)
Definition delimiter (c : ascii) : bool :=
  (Ascii.eqb c "," || Ascii.eqb c "}" || Ascii.eqb c "]" || Ascii.eqb c ")" || Ascii.eqb c " ")%char.
Definition delimited (s : string) : Prop := match s with "" => True | String c _ => delimiter c = true end.
(** a text that can be told from what follows it, and does not begin like the end of a list *)
Definition readable {T} (text : T -> string) : Prop :=
  (forall x, match text x with "" => False | String c _ => delimiter c = false end) /\
  forall x y s t, delimited s -> delimited t -> text x ++ s = text y ++ t -> x = y /\ s = t.

(** a text without delimiters, different for different values *)
Lemma readable_simple {T} (text : T -> string) :
  (forall x, text x <> "" /\ forall c, In c (list_ascii_of_string (text x)) -> delimiter c = false) ->
  (forall x y, text x = text y -> x = y) -> readable text.
Proof.
  intros H I. split.
  - intros x. destruct (H x) as [N F]. destruct (text x) as [|c r]; [congruence|]. apply F. now left.
  - intros x y s t Hs Ht E.
    assert (G : forall a b s t, (forall c, In c (list_ascii_of_string a) -> delimiter c = false) ->
              (forall c, In c (list_ascii_of_string b) -> delimiter c = false) -> delimited s -> delimited t ->
              a ++ s = b ++ t -> a = b /\ s = t).
    { clear. intros a. induction a as [|c a IH]; intros b s t Ha Hb Hs Ht E.
      - destruct b as [|d b]; [split; [reflexivity|exact E]|]. cbn [append] in E. subst s. cbn [delimited] in Hs.
        rewrite (Hb d (or_introl eq_refl)) in Hs. discriminate.
      - destruct b as [|d b]; cbn [append] in E.
        + subst t. cbn [delimited] in Ht. rewrite (Ha c (or_introl eq_refl)) in Ht. discriminate.
        + injection E as -> E. destruct (IH b s t) as [-> ->]; auto.
          * intros c Hc. apply Ha. now right.
          * intros c Hc. apply Hb. now right. }
    destruct (G _ _ s t (proj2 (H x)) (proj2 (H y)) Hs Ht E) as [Q ->]. split; [now apply I|reflexivity].
Qed.

Lemma app_inj_s (p s t : string) : p ++ s = p ++ t -> s = t.
Proof. induction p as [|c p IH]; [auto|]. cbn [append]. intros E. injection E as E. auto. Qed.
Section Read.
  Context {T : Type} (text : T -> string) (R : forall x, match text x with "" => False | String c _ => delimiter c = false end).
  (** the items up to a closing bracket *)
  Lemma read_commas cl (Hcl : delimiter cl = true) (Hc : Ascii.eqb cl "," = false) : forall l m s t,
    (forall x y s t, In x l -> delimited s -> delimited t -> text x ++ s = text y ++ t -> x = y /\ s = t) ->
    commas (map text l) ++ String cl s = commas (map text m) ++ String cl t -> l = m /\ s = t.
  Proof.
    assert (NE : forall x s, match text x ++ s with "" => False | String c _ => delimiter c = false end).
    { intros x s. specialize (R x). destruct (text x); [contradiction|exact R]. }
    assert (CE : forall x l s, exists r, commas (map text (x :: l)) ++ s = text x ++ r).
    { intros x l s. destruct l as [|y l]; [exists s; reflexivity|]. eexists.
      change (commas (map text (x :: y :: l))) with (text x ++ ", " ++ commas (map text (y :: l))).
      apply app_assoc_s. }
    induction l as [|x l IH]; intros m s t U E.
    - destruct m as [|y m]; [cbn [map commas append] in E; injection E as ->; auto|].
      destruct (CE y m (String cl t)) as [r Q]. rewrite Q in E. cbn [map commas append] in E.
      specialize (NE y r). rewrite <- E in NE. congruence.
    - destruct m as [|y m].
      { destruct (CE x l (String cl s)) as [r Q]. rewrite Q in E. cbn [map commas append] in E.
        specialize (NE x r). rewrite E in NE. congruence. }
      assert (Tl : forall x l s, exists r, commas (map text (x :: l)) ++ String cl s = text x ++ r /\ delimited r /\
                 match l with
                 | [] => r = String cl s
                 | _ => r = ", " ++ commas (map text l) ++ String cl s
                 end).
      { clear - Hcl. intros x l s. destruct l as [|y l].
        - exists (String cl s). split; [reflexivity|]. split; [exact Hcl|reflexivity].
        - exists (", " ++ commas (map text (y :: l)) ++ String cl s). split; [|split; reflexivity].
          change (commas (map text (x :: y :: l))) with (text x ++ ", " ++ commas (map text (y :: l))).
          now rewrite !app_assoc_s. }
      destruct (Tl x l s) as (r & Q & D & C). destruct (Tl y m t) as (r' & Q' & D' & C'). rewrite Q, Q' in E.
      destruct (U x y r r' (or_introl eq_refl) D D' E) as [<- <-].
      assert (U2 : forall x y s t, In x l -> delimited s -> delimited t -> text x ++ s = text y ++ t -> x = y /\ s = t).
      { intros x' y' s' t' Hx. apply U. now right. }
      destruct l as [|x' l], m as [|y' m]; subst r.
      + injection C' as ->. auto.
      + cbn [append] in C'. injection C' as C' _. subst cl. discriminate.
      + cbn [append] in C'. injection C' as C' _. subst cl. discriminate.
      + apply app_inj_s in C'. destruct (IH _ _ _ U2 C') as [Q2 ->]. split; [now rewrite Q2|reflexivity].
  Qed.
  Lemma items_false op cl ts : items_text false op cl ts = op ++ commas ts ++ cl.
  Proof. destruct ts; reflexivity. Qed.
  Lemma read_items op c l m s t : delimiter c = true -> Ascii.eqb c "," = false ->
    (forall x y s t, In x l -> delimited s -> delimited t -> text x ++ s = text y ++ t -> x = y /\ s = t) ->
    items_text false op (String c "") (map text l) ++ s = items_text false op (String c "") (map text m) ++ t -> l = m /\ s = t.
  Proof.
    intros Hc Hcc U E. rewrite !items_false, !app_assoc_s in E. apply app_inj_s in E.
    apply (read_commas c Hc Hcc l m s t U E).
  Qed.
End Read.
Lemma readable_items {T} (text : T -> string) o op c : readable text -> delimiter o = false -> delimiter c = true ->
  Ascii.eqb c "," = false -> readable (fun l => items_text false (String o op) (String c "") (map text l)).
Proof.
  intros [R U] Ho Hc Hcc. split.
  - intros l. rewrite items_false. exact Ho.
  - intros l m s t _ _ E. revert E. apply (read_items text R); auto.
Qed.

Section ReadImpls.
  Context {T K V : Type} (textT : bool -> T -> string) (textK : bool -> K -> string) (textV : bool -> V -> string).
  Context (RT : readable (textT false)) (RK : readable (textK false)) (RV : readable (textV false)).
  Lemma readable_pair : readable (pair_text textK textV false).
  Proof.
    split; [intros p; reflexivity|]. intros [k v] [k' v'] s t Hs Ht E.
    unfold pair_text, tuple_text in E. rewrite !items_false in E. cbn [fst snd commas append] in E. injection E as E.
    rewrite ?app_assoc_s in E. apply (proj2 RK) in E; [|reflexivity..]. destruct E as [-> E].
    cbn [append] in E. injection E as E. rewrite ?app_assoc_s in E.
    apply (proj2 RV) in E; [|reflexivity..]. destruct E as [-> E]. cbn [append] in E. injection E as ->. auto.
  Qed.
  Lemma readable_option : readable (option_text textV false).
  Proof.
    split; [intros [v|]; reflexivity|]. intros [v|] [v'|] s t Hs Ht E;
      unfold option_text, tuple_text in E; rewrite ?items_false in E; cbn [commas append] in E.
    - injection E as E. rewrite ?app_assoc_s in E.
      apply (proj2 RV) in E; [|reflexivity..]. destruct E as [-> E]. cbn [append] in E. injection E as ->. auto.
    - discriminate.
    - discriminate.
    - injection E as E. auto.
  Qed.
End ReadImpls.

(** Elements whose [{:?}] text can be told from what follows give collections of which the same holds: in
    particular, different sets, maps, complements and trees are printed differently. *)
Theorem C130_readable : forall (T K V : Type) textT textK textV,
  readable (textT false : T -> string) -> readable (textK false : K -> string) -> readable (textV false : V -> string) ->
  readable (vecset_text textT false) /\ readable (vecmap_text textK textV false) /\
  readable (total_set_text textT false) /\ readable (total_map_text textK textV false) /\
  readable (tree_text textK textV false) /\ readable (iter_key_text textK false).
Proof.
  intros T K V textT textK textV RT RK RV.
  assert (HS : readable (vecset_text textT false)) by (now apply (readable_items (textT false) "{")).
  assert (HM : readable (vecmap_text textK textV false)).
  { apply (readable_items (pair_text textK textV false) "{"); [now apply readable_pair|reflexivity..]. }
  assert (LK : readable (fun p => list_text false (map (textK false) p))) by (now apply (readable_items (textK false) "[")).
  split; [exact HS|]. split; [exact HM|]. split; [|split; [|split]].
  - split; [intros [l n]; unfold total_set_text, vecset_text, set_text; rewrite items_false; destruct n; reflexivity|].
    intros [l n] [l' n'] s t Hs Ht E. unfold total_set_text in E. cbn [fst snd] in E.
    destruct n, n'; cbn [append] in E.
    + injection E as E. destruct (proj2 HS l l' s t Hs Ht E) as [-> ->]. auto.
    + unfold vecset_text, set_text in E. rewrite !items_false in E. discriminate.
    + unfold vecset_text, set_text in E. rewrite !items_false in E. discriminate.
    + destruct (proj2 HS l l' s t Hs Ht E) as [-> ->]. auto.
  - split; [intros [m d]; reflexivity|]. intros [m d] [m' d'] s t Hs Ht E.
    unfold total_map_text, struct_text in E. rewrite !items_false in E. cbn [fst snd map commas] in E.
    rewrite ?app_assoc_s in E. repeat apply app_inj_s in E.
    apply (proj2 HM) in E; [|reflexivity..]. destruct E as [-> E]. repeat apply app_inj_s in E.
    apply (proj2 RV) in E; [|reflexivity..]. destruct E as [-> E]. apply app_inj_s in E. subst t. auto.
  - split; [intros [p v c]; reflexivity|].
    intros x. induction x as [p v c IH] using rtree_ind'. rewrite Forall_forall in IH.
    intros [p' v' c'] s t Hs Ht E. cbn [tree_text] in E.
    unfold struct_text in E. rewrite !items_false in E. cbn [fst snd map commas] in E.
    unfold tuple_text in E. rewrite !items_false in E. cbn [commas] in E.
    rewrite ?app_assoc_s in E. repeat apply app_inj_s in E.
    apply (proj2 LK) in E; [|reflexivity..]. destruct E as [-> E]. repeat apply app_inj_s in E.
    apply (proj2 (readable_option textV RV)) in E; [|reflexivity..]. destruct E as [-> E].
    repeat apply app_inj_s in E.
    apply (read_items (tree_text textK textV false)) in E.
    + destruct E as [-> E]. apply app_inj_s in E. subst t. auto.
    + intros [p0 v0 c0]. reflexivity.
    + reflexivity.
    + reflexivity.
    + intros x y s0 t0 Hx. now apply IH.
  - split; [intros l; reflexivity|]. intros l l' s t Hs Ht E.
    unfold iter_key_text, tuple_text in E. rewrite !items_false in E. cbn [commas] in E.
    rewrite ?app_assoc_s in E. repeat apply app_inj_s in E.
    apply (proj2 LK) in E; [|reflexivity..]. destruct E as [-> E]. apply app_inj_s in E. subst t. auto.
Qed.

(** what [format!("{:?}", x)] gives *)
Definition formatted (d : fmt_res) : string := fst (run (fun w s => (w ++ s, WOk)) d "").
Theorem C130_distinct : forall (T K V : Type) (showT : debug T) (showK : debug K) (showV : debug V) textT textK textV,
  shows showT textT -> shows showK textK -> shows showV textV ->
  readable (textT false) -> readable (textK false) -> readable (textV false) ->
  (forall a b, formatted (fmt_vecset showT false a) = formatted (fmt_vecset showT false b) <-> a = b) /\
  (forall a b, formatted (fmt_vecmap showK showV false a) = formatted (fmt_vecmap showK showV false b) <-> a = b) /\
  (forall a b, formatted (fmt_total_set showT false a) = formatted (fmt_total_set showT false b) <-> a = b) /\
  (forall a b, formatted (fmt_total_map showK showV false a) = formatted (fmt_total_map showK showV false b) <-> a = b) /\
  (forall a b, formatted (fmt_tree showK showV false a) = formatted (fmt_tree showK showV false b) <-> a = b) /\
  (forall a b, formatted (fmt_iter_key showK false a) = formatted (fmt_iter_key showK false b) <-> a = b).
Proof.
  intros T K V showT showK showV textT textK textV HT HK HV RT RK RV.
  destruct (C130_text _ _ _ _ _ _ _ _ _ HT HK HV) as (T1 & T2 & T3 & T4 & T5 & T6).
  destruct (C130_readable _ _ _ _ _ _ RT RK RV) as (R1 & R2 & R3 & R4 & R5 & R6).
  assert (G : forall (X : Type) (fm : debug X) text, shows fm text -> readable (text false) ->
    forall a b, formatted (fm false a) = formatted (fm false b) <-> a = b).
  { clear. intros X fm text HS HR a b. split; [|now intros ->]. unfold formatted.
    rewrite (proj1 (C130_writers _ _ (HS false a))), (proj1 (C130_writers _ _ (HS false b))). cbn [fst append].
    intros E. apply (proj2 HR a b "" "" I I). now rewrite E. }
  split; [eapply G; eassumption|]. split; [eapply G; eassumption|]. split; [eapply G; eassumption|].
  split; [eapply G; eassumption|]. split; eapply G; eassumption.
Qed.

(** An archived tree shows nothing of its content, in either form: two of them always format alike. *)
Theorem C130_archived_tree : forall (A : Type),
  shows (fmt_archived_tree (A := A)) (fun _ _ => "ArchivedRadixTree { .. }") /\
  forall (a b : A) alt alt', formatted (fmt_archived_tree alt a) = formatted (fmt_archived_tree alt' b).
Proof.
  intros A. split; [|reflexivity]. intros alt a. unfold fmt_archived_tree, debug_opaque.
  change "ArchivedRadixTree { .. }" with ("ArchivedRadixTree" ++ " { .. }").
  apply prints_andt; apply prints_write.
Qed.
Print Assumptions C130_archived_tree.

(** *** Witnesses *)
(** numbers, in decimal *)
Definition show_nat : debug nat := fun _ n => write_str (NilEmpty.string_of_uint (Nat.to_uint n)).
Definition text_nat (_ : bool) (n : nat) : string := NilEmpty.string_of_uint (Nat.to_uint n).
Example C130_nat_shows : shows show_nat text_nat.
Proof. intros alt n. apply prints_write. Qed.
Example C130_nat_readable : readable (text_nat false).
Proof.
  apply readable_simple.
  - intros n. unfold text_nat. split.
    + destruct (Nat.to_uint n) eqn:E; try discriminate. exfalso. revert E.
      assert (G : forall u, Nat.to_uint n = u -> u <> Nil); [|intros E; exact (G _ E eq_refl)].
      intros u Hu. rewrite <- Hu. rewrite <- (Unsigned.of_to n) at 1. rewrite Unsigned.to_of.
      destruct (Nat.to_uint n) as [|d|d|d|d|d|d|d|d|d|d]; cbn; try discriminate.
      unfold unorm, nzhead. fold nzhead. destruct (nzhead d); discriminate.
    + generalize (Nat.to_uint n). induction u as [|u IH|u IH|u IH|u IH|u IH|u IH|u IH|u IH|u IH|u IH]; intros c Hc;
        [destruct Hc|..]; (destruct Hc as [<-|Hc]; [reflexivity|now apply IH]).
  - intros x y E. unfold text_nat in E.
    assert (Q : Some (Nat.to_uint x) = Some (Nat.to_uint y)) by (rewrite <- !NilEmpty.usu, E; reflexivity).
    injection Q as Q. rewrite <- (Unsigned.of_to x), <- (Unsigned.of_to y), Q. reflexivity.
Qed.
Example C130_examples :
  formatted (fmt_vecset show_nat false [1; 2; 30]) = "{1, 2, 30}" /\
  formatted (fmt_total_set show_nat false ([1; 2], true)) = "!{1, 2}" /\
  formatted (fmt_total_set show_nat false ([], false)) = "{}" /\
  formatted (fmt_vecmap show_nat show_nat false [(1, 10); (2, 20)]) = "{(1, 10), (2, 20)}" /\
  formatted (fmt_total_map show_nat show_nat false ([(1, 10)], 0)) = "TotalVecMap { values: {(1, 10)}, default: 0 }" /\
  formatted (fmt_tree show_nat show_nat false (Node [1; 2] None [Node [3] (Some 7) []; Node [4] (Some 8) []])) =
    "RadixTree { prefix: Fragment([1, 2]), value: None, children: [RadixTree { prefix: Fragment([3]), value: Some(7), children: [] }, RadixTree { prefix: Fragment([4]), value: Some(8), children: [] }] }" /\
  formatted (fmt_vecset show_nat true [1; 2]) = "{" ++ newline ++ "    1," ++ newline ++ "    2," ++ newline ++ "}" /\
  formatted (fmt_vecmap show_nat show_nat true [(1, 2)]) =
    "{" ++ newline ++ "    (" ++ newline ++ "        1," ++ newline ++ "        2," ++ newline ++ "    )," ++ newline ++ "}" /\
  formatted (fmt_archived_tree false tt) = "ArchivedRadixTree { .. }".
Proof. vm_compute. repeat split. Qed.
(** a writer with room for 7 characters *)
Definition small_writer (w : string) (s : string) : string * wres :=
  if Nat.leb (String.length (w ++ s)) 7 then (w ++ s, WOk) else (w, WErr).
(** an element whose Debug fails after having written something *)
Definition show_bad : debug nat := fun _ n => if Nat.eqb n 2 then write_str "<" ;; DRet false else write_str "x".
Example C130_failures :
  run small_writer (fmt_vecset show_nat false [1; 2; 30; 4]) "" = ("{1, 2, ", FErr) /\
  run small_writer (fmt_vecset show_bad false [1; 2; 3]) "" = ("{x, <", FErr).
Proof. vm_compute. split; reflexivity. Qed.

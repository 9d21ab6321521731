(** A panic in user code reaches the caller, and no user code runs after it: the proofs for RadixUserModel.v. *)
From Verif Require Export RadixUserModel RadixUserSetModel.
From Verif Require Import RadixFacts.

Section Quiet.
  (** two pieces of user code: the second does what the first does where that returns, and never panics (see
      PropPanic.v) *)
  Context {E K : Type} (u u' : ucode E K) (strat : nat -> nat -> bool).
  (** [Q]: no user code has panicked; [T]: the last call did, and no other *)
  Context (Q T : E -> Prop).
  Definition fine {X Y} (f f' : clos E X Y) : Prop :=
    forall e x, Q e -> match f e x with (e', Ret _) => Q e' /\ f' e x = f e x | (e', Throw) => T e' end.
  Definition fine_mut {V X} (f f' : mclos E V X) : Prop :=
    forall e v x, Q e -> match f e v x with (e', _, Ret _) => Q e' /\ f' e v x = f e v x | (e', _, Throw) => T e' end.
  Context (OE : fine (u_eq u) (u_eq u')) (OC : fine (u_cmp u) (u_cmp u')) (OL : fine (u_lt u) (u_lt u')).

  (** what is claimed of each kind of result *)
  Definition tri {Y} (r r' : given_back E Y) : Prop :=
    match r with Some (e, Ret _) => Q e /\ r' = r | Some (e, Throw) => T e \/ Q e /\ r' = r | None => r' = r end.
  Definition trd {Y} (r r' : done (Y * E)) : Prop :=
    match r with Done (_, e) => Q e /\ r' = r | Unwound (_, e) => T e \/ Q e /\ r' = r | DoneNoFuel => r' = r end.
  Definition tro {S} (ev : S -> E) (r r' : out S) : Prop :=
    match r with Cont s | Stop s => Q (ev s) /\ r' = r | Panic s => T (ev s) \/ Q (ev s) /\ r' = r | NoFuel => r' = r end.
  Definition trb {S} (ev : S -> E) (r r' : bsres * S) : Prop :=
    match r with (BsOk _, s) | (BsErr _, s) => Q (ev s) /\ r' = r | (BsPanic, s) => T (ev s) \/ Q (ev s) /\ r' = r | (BsNoFuel, _) => r' = r end.
  Definition trc {S} (ev : S -> E) (r r' : S * option comparison) : Prop :=
    match r with (s, Some _) => Q (ev s) /\ r' = r | (s, None) => T (ev s) \/ Q (ev s) /\ r' = r end.

  Lemma tri_then {Y Z} (r r' : given_back E Y) (k k' : Y -> E -> given_back E Z) :
    tri r r' -> (forall y e, Q e -> tri (k y e) (k' y e)) -> tri (then_ r k) (then_ r' k').
  Proof. destruct r as [[e [y|]]|]; cbn [tri]; intros H HK; [destruct H as [H ->]|destruct H as [H|[H ->]]|subst r']; cbn; auto. Qed.
  Lemma tri_call {X Y} (f f' : clos E X Y) e x : fine f f' -> Q e -> tri (Some (f e x)) (Some (f' e x)).
  Proof. intros F H. specialize (F e x H). cbn. destruct (f e x) as [e' [y|]]; [|auto]. destruct F as [F ->]. auto. Qed.
  Lemma tri_quiet {X Y} e (r : res X) (k k' : X -> given_back E Y) : Q e -> (forall x, tri (k x) (k' x)) -> tri (quiet e r k) (quiet e r k').
  Proof. destruct r; cbn; auto. Qed.
  Lemma tro_bind {S} (ev : S -> E) (o o' : out S) k k' : tro ev o o' -> (forall s, Q (ev s) -> tro ev (k s) (k' s)) -> tro ev (obind o k) (obind o' k').
  Proof. destruct o; cbn [tro]; intros H HK; [destruct H as [H ->]|destruct H as [H ->]|destruct H as [H|[H ->]]|subst o']; cbn; auto. Qed.

  Lemma t_ucommon : forall a b e, Q e -> tri (ucommon u a b e) (ucommon u' a b e).
  Proof using OE.
    induction a as [|x a IH]; intros b e H; cbn [ucommon]; [cbn; auto|]. destruct b as [|y b]; [cbn; auto|].
    apply tri_then; [now apply tri_call|]. intros [] e1 H1; [|cbn; auto]. apply tri_then; [now apply IH|]. intros; cbn; auto.
  Qed.

  Lemma t_search {S B} (ev : S -> E) (f f' : S -> B -> S * option comparison)
    (C : forall s b, Q (ev s) -> trc ev (f s b) (f' s b)) (l : list B) s : Q (ev s) -> trb ev (wbsearch f l s) (wbsearch f' l s).
  Proof.
    unfold wbsearch.
    assert (G : forall fuel lo hi s, Q (ev s) -> trb ev (wbs_loop f l fuel lo hi s) (wbs_loop f' l fuel lo hi s)); [|apply G].
    clear s. induction fuel as [|fuel IH]; intros lo hi s H; cbn [wbs_loop]; [reflexivity|]. cbv zeta.
    destruct (lo <? hi); [|cbn; auto]. destruct (nth_error l _) as [y|]; [|cbn; auto]. pose proof (C s y H) as C0.
    destruct (f s y) as [s' [q|]]; cbn [trc] in C0; [destruct C0 as [C0 ->]|destruct C0 as [C0|[C0 ->]]]; [destruct q| |]; cbn; auto.
  Qed.

  Section Merge.
    Context {S A B : Type} (ev : S -> E) (c c' : S -> A -> B -> S * option comparison) (O O' : mop S A B).
    Context (MA : forall s, mo_a O' s = mo_a O s) (MB : forall s, mo_b O' s = mo_b O s).
    Context (C : forall s a b, Q (ev s) -> trc ev (c s a b) (c' s a b)).
    Context (FA : forall s n, Q (ev s) -> tro ev (mo_from_a O s n) (mo_from_a O' s n)) (FB : forall s n, Q (ev s) -> tro ev (mo_from_b O s n) (mo_from_b O' s n))
            (CO : forall s, Q (ev s) -> tro ev (mo_coll O s) (mo_coll O' s)).
    Lemma t_binary : forall fuel s an bn, Q (ev s) -> tro ev (gbinary c O fuel s an bn) (gbinary c' O' fuel s an bn).
    Proof using C FA FB CO MA MB.
      induction fuel as [|fuel IH]; intros s an bn H; cbn [gbinary]; [reflexivity|]. cbv zeta. rewrite MA, MB.
      destruct (an =? 0); [destruct (bn =? 0); [cbn; auto|now apply FB]|]. destruct (bn =? 0); [now apply FA|].
      destruct (nth_error (mo_a O s) (an / 2)) as [x|]; [|cbn; auto].
      match goal with |- tro _ (let (_, _) := ?w in _) (let (_, _) := ?w' in _) => assert (TS : trb ev w w') end.
      { apply t_search; [|exact H]. intros s0 y H0. pose proof (C s0 x y H0) as C0. destruct (c s0 x y) as [s1 [q|]]; cbn [trc] in C0.
        - destruct C0 as [C0 ->]. cbn. auto.
        - destruct C0 as [C0|[C0 ->]]; cbn; auto. }
      destruct (wbsearch _ _ s) as [[bm|bi| |] s0]; cbn [trb] in TS.
      - destruct TS as [TS ->]. apply tro_bind; [now apply IH|]. intros s1 H1. apply tro_bind; [now apply CO|]. intros s2 H2. now apply IH.
      - destruct TS as [TS ->]. apply tro_bind; [now apply IH|]. intros s1 H1. apply tro_bind; [now apply FA|]. intros s2 H2. now apply IH.
      - destruct TS as [TS|[TS ->]]; cbn; auto.
      - rewrite TS. reflexivity.
    Qed.
    Lemma t_tape : forall fuel s, Q (ev s) -> tro ev (gtape c O fuel s) (gtape c' O' fuel s).
    Proof using C FA FB CO MA MB.
      induction fuel as [|fuel IH]; intros s H; cbn [gtape]; [reflexivity|]. rewrite MA, MB.
      destruct (mo_a O s) as [|x l] eqn:Ea, (mo_b O s) as [|y m] eqn:Eb; [cbn; auto|now apply FB|now apply FA|].
      pose proof (C s x y H) as C0. destruct (c s x y) as [s' [q|]]; cbn [trc] in C0.
      - destruct C0 as [C0 ->]. destruct q; (apply tro_bind; [|intros s1 H1; now apply IH]); auto.
      - destruct C0 as [C0|[C0 ->]]; cbn; auto.
    Qed.
    Lemma t_merge s : Q (ev s) -> tro ev (gmerge c O strat s) (gmerge c' O' strat s).
    Proof using C FA FB CO MA MB. intros H. unfold gmerge. rewrite MA, MB. cbv zeta. destruct (strat _ _); [now apply t_tape|now apply t_binary]. Qed.
  End Merge.

  Lemma t_head_cmp {S V X} (s : S * E) (a : rtree K V) (b : rtree K X) : Q (snd s) -> trc snd (uhead_cmp u s a b) (uhead_cmp u' s a b).
  Proof using OC.
    intros H. unfold uhead_cmp. destruct (t_prefix a) as [|x ?], (t_prefix b) as [|y ?]; try (cbn; auto; fail).
    pose proof (OC (snd s) (x, y) H) as C0. destruct (u_cmp u (snd s) (x, y)) as [e' [q|]]; [destruct C0 as [C0 ->]|]; cbn; auto.
  Qed.

  Section Mat.
    Context {V : Type} (cl cl' : clos E V V) (CL : fine cl cl').
    Lemma t_uclone v e : Q e -> tri (uclone cl v e) (uclone cl' v e).
    Proof using CL. intros H. destruct v as [v|]; cbn [uclone]; [|cbn; auto]. apply tri_then; [now apply tri_call|]. intros; cbn; auto. Qed.
    Lemma t_umat : forall (t : rtree K V) n e, Q e -> tri (umat cl t n e) (umat cl' t n e).
    Proof using CL.
      induction t as [p v c IH] using rtree_ind'. intros n e H. cbn [umat]. destruct (n <? length p); [|cbn; auto].
      apply tri_then; [now apply t_uclone|]. intros v1 e1 H1. apply tri_then; [|intros; cbn; auto].
      revert e1 H1. induction IH as [|x l Hx _ IHl]; intros e1 H1; [cbn; auto|].
      apply tri_then; [now apply Hx|]. intros y e2 H2. apply tri_then; [now apply IHl|]. intros; cbn; auto.
    Qed.
    Lemma t_umat_all : forall (l : list (rtree K V)) e, Q e -> tri (umat_all cl l e) (umat_all cl' l e).
    Proof using CL.
      induction l as [|x l IH]; intros e H; cbn [umat_all]; [cbn; auto|]. apply tri_then; [now apply t_umat|].
      intros y e2 H2. apply tri_then; [now apply IH|]. intros; cbn; auto.
    Qed.
    Lemma t_uclone_tree : forall (t : rtree K V) e, Q e -> tri (uclone_tree cl t e) (uclone_tree cl' t e).
    Proof using CL.
      induction t as [p v c IH] using rtree_ind'. intros e H. cbn [uclone_tree].
      apply tri_then; [now apply t_uclone|]. intros v1 e1 H1. apply tri_then; [|intros; cbn; auto].
      revert e1 H1. induction IH as [|x l Hx _ IHl]; intros e1 H1; [cbn; auto|].
      apply tri_then; [now apply Hx|]. intros y e2 H2. apply tri_then; [now apply IHl|]. intros; cbn; auto.
    Qed.
  End Mat.
  Lemma t_usort2 {V} (a b : rtree K V) e : Q e -> tri (usort2 u a b e) (usort2 u' a b e).
  Proof using OL.
    intros H. unfold usort2. destruct (t_prefix b) as [|y ?]; [cbn; auto|]. destruct (t_prefix a) as [|x ?]; [cbn; auto|].
    apply tri_then; [now apply tri_call|]. intros; cbn; auto.
  Qed.

  (** ** Lookups *)
  Lemma t_ufind_loop {V} : forall fuel (t : rtree K V) key e, Q e -> tri (ufind_loop u fuel t key e) (ufind_loop u' fuel t key e).
  Proof using OE OC.
    induction fuel as [|fuel IH]; intros t key e H; cbn [ufind_loop]; [reflexivity|].
    apply tri_then; [now apply t_ucommon|]. intros n e1 H1. cbv zeta.
    destruct (_ && _); [cbn; auto|]. destruct (length key - n =? 0); [cbn; auto|]. destruct (_ =? 0); [|cbn; auto].
    destruct (nth_error key n) as [c|]; [|cbn; auto].
    match goal with |- tri (let (_, _) := ?w in _) (let (_, _) := ?w' in _) => assert (TS : trb (fun e => e) w w') end.
    { apply t_search; [|exact H1]. intros e2 x H2. destruct (t_prefix x) as [|h ?]; [cbn; auto|].
      pose proof (OC e2 (h, c) H2) as C0. destruct (u_cmp u e2 (h, c)) as [e' [q|]]; [destruct C0 as [C0 ->]|]; cbn; auto. }
    destruct (wbsearch _ _ e1) as [[i|i| |] e2]; cbn [trb] in TS.
    - destruct TS as [TS ->]. destruct (nth_error (t_children t) i); [now apply IH|cbn; auto].
    - destruct TS as [TS ->]. cbn. auto.
    - destruct TS as [TS|[TS ->]]; cbn; auto.
    - rewrite TS. reflexivity.
  Qed.
  Lemma t_ufind {V} (t : rtree K V) key e : Q e -> tri (ufind u t key e) (ufind u' t key e).
  Proof using OE OC. apply t_ufind_loop. Qed.
  Lemma t_get {V} (t : rtree K V) key e : Q e -> tri (urt_get u t key e) (urt_get u' t key e).
  Proof using OE OC. intros H. apply tri_then; [now apply t_ufind|]. intros; cbn; auto. Qed.
  Lemma t_contains_key {V} (t : rtree K V) key e : Q e -> tri (urt_contains_key u t key e) (urt_contains_key u' t key e).
  Proof using OE OC. intros H. apply tri_then; [now apply t_ufind|]. intros; cbn; auto. Qed.
  Lemma t_filter_prefix {V} (cl cl' : clos E V V) (CL : fine cl cl') (t : rtree K V) key e : Q e -> tri (urt_filter_prefix u cl t key e) (urt_filter_prefix u' cl' t key e).
  Proof using OE OC.
    intros H. apply tri_then; [now apply t_ufind|]. intros [t'|t' rt|t' rt rp] e1 H1.
    - apply tri_then; [now apply t_uclone_tree|]. intros; cbn; auto.
    - apply tri_then; [now apply t_uclone_tree|]. intros t2 e2 H2. cbv zeta. destruct (_ <=? _); cbn; auto.
    - cbn; auto.
  Qed.
  Lemma t_scan_prefix {V} (t : rtree K V) key e : Q e -> tri (urt_scan_prefix u t key e) (urt_scan_prefix u' t key e).
  Proof using OE OC. intros H. apply tri_then; [now apply t_ufind|]. intros r e1 H1. apply tri_quiet; [exact H1|]. intros; cbn; auto. Qed.

  (** ** In place *)
  Section InPlace.
    Context {V X : Type} (rec rec' : rtree K V -> rtree K X -> E -> done (rtree K V * E)) (REC : forall a b e, Q e -> trd (rec a b e) (rec' a b e)).
    Context (ta tb : bool) (conv conv' : rtree K X -> E -> given_back E (rtree K V)) (CV : forall t e, Q e -> tri (conv t e) (conv' t e)).
    Lemma t_uextend : forall n bd b e, Q e -> tro snd (uextend conv n bd b e) (uextend conv' n bd b e).
    Proof using CV.
      induction n as [|n IH]; intros bd b e H; cbn [uextend]; [cbn; auto|]. destruct b as [|y b]; [cbn; auto|].
      pose proof (CV y e H) as C0. destruct (conv y e) as [[e1 [x|]]|]; cbn [tri] in C0.
      - destruct C0 as [C0 ->]. now apply IH.
      - destruct C0 as [C0|[C0 ->]]; cbn; auto.
      - rewrite C0. reflexivity.
    Qed.
    Lemma t_uadv_b s n take : Q (snd s) -> tro snd (uadv_b conv s n take) (uadv_b conv' s n take).
    Proof using CV. intros H. unfold uadv_b. destruct take; [now apply t_uextend|cbn; auto]. Qed.
    Lemma t_children_with a b e : Q e -> trd (uchildren_with u strat rec ta tb conv a b e) (uchildren_with u' strat rec' ta tb conv' a b e).
    Proof using OC REC CV.
      intros H. unfold uchildren_with.
      assert (G : tro snd (gmerge (uhead_cmp u) (uop_with rec ta tb conv) strat (ipr_new a b, e))
                          (gmerge (uhead_cmp u') (uop_with rec' ta tb conv') strat (ipr_new a b, e))).
      { apply t_merge; [reflexivity|reflexivity|intros; now apply t_head_cmp| | | |exact H].
        - intros s n Hs. cbn. auto.
        - intros s n Hs. now apply t_uadv_b.
        - intros [m e0] Hs. cbn [uop_with mo_coll ucoll_with]. destruct (bd_src (ipr_a m)) as [|av a'], (ipr_b m) as [|bv b'] eqn:Eb; try (cbn; auto; fail).
          cbn [snd] in Hs. pose proof (REC av bv e0 Hs) as R0. destruct (rec av bv e0) as [[av' e']|[av' e']|]; cbn [trd] in R0.
          + destruct R0 as [R0 ->]. apply tro_bind; [cbn; auto|]. intros s1 H1. cbn. auto.
          + destruct R0 as [R0|[R0 ->]]; cbn; auto.
          + rewrite R0. reflexivity. }
      destruct (gmerge _ _ _ _) as [s|s|s|]; cbn [tro] in G; [destruct G as [G ->]|destruct G as [G ->]|destruct G as [G|[G ->]]|rewrite G]; cbn; auto.
    Qed.
  End InPlace.
  Lemma t_finish {V} p (v : option V) r r' : trd r r' -> trd (ufinish (K := K) (E := E) p v r) (ufinish p v r').
  Proof. destruct r as [[c e]|[c e]|]; cbn [trd]; intros G; [destruct G as [G ->]|destruct G as [G|[G ->]]|rewrite G]; cbn; auto. Qed.
  Lemma t_lift {V X} (self : rtree K V) (r r' : given_back E X) k k' : tri r r' -> (forall x e, Q e -> trd (k x e) (k' x e)) -> trd (ulift self r k) (ulift self r' k').
  Proof. destruct r as [[e [x|]]|]; cbn [tri]; intros G HK; [destruct G as [G ->]|destruct G as [G|[G ->]]|rewrite G]; cbn; auto. Qed.
  Lemma tr_split {V} (self : rtree K V) n e k k' : Q e -> (forall t, trd (k t) (k' t)) -> trd (usplit (E := E) self n e k) (usplit self n e k').
  Proof. intros H HK. unfold usplit. destruct (t_split self n); cbn; auto. Qed.
  Definition trv {V} (r r' : option V * E * bool) : Prop := let '(_, e, ok) := r in if ok then Q e /\ r' = r else T e \/ Q e /\ r' = r.
  Lemma tr_value {V} p (c : list (rtree K V)) r r' k k' : trv r r' -> (forall v e, Q e -> trd (k v e) (k' v e)) -> trd (uvalue p c r k) (uvalue p c r' k').
  Proof. destruct r as [[v e] []]; cbn [trv]; intros G HK; [destruct G as [G ->]|destruct G as [G|[G ->]]]; cbn; auto. Qed.
  Lemma t_ucall {V X} (f f' : mclos E V X) v x e : fine_mut f f' -> Q e -> trv (ucall f v x e) (ucall f' v x e).
  Proof.
    intros F H. unfold ucall. specialize (F e v x H). destruct (f e v x) as [[e' v'] [b|]].
    - destruct F as [F ->]. destruct b; cbn; auto.
    - cbn. auto.
  Qed.
  Lemma t_no_conv {V X} (t : rtree K X) e : Q e -> tri (uno_conv (V := V) t e) (uno_conv t e).
  Proof. cbn. auto. Qed.

  Lemma t_outer_with {V} (cl cl' : clos E V V) (f f' : mclos E V V) (CL : fine cl cl') (F : fine_mut f f') :
    forall fuel self that e, Q e -> trd (uouter_with u strat cl f fuel self that e) (uouter_with u' strat cl' f' fuel self that e).
  Proof using OE OC OL.
    assert (VU : forall v w e, Q e -> trv (uupd_outer cl f v w e) (uupd_outer cl' f' v w e)).
    { intros v w e H. destruct w as [w|]; cbn [uupd_outer]; [|cbn; auto]. destruct v as [v|]; [now apply t_ucall|].
      specialize (CL e w H). destruct (cl e w) as [e' [w'|]]; [destruct CL as [CL ->]|]; cbn; auto. }
    induction fuel as [|fuel IH]; intros self that e H; cbn [uouter_with]; [reflexivity|]. cbv zeta.
    assert (CH : forall a b e, Q e -> trd (uchildren_with u strat (uouter_with u strat cl f fuel) true true (fun t => umat cl t 0) a b e)
                                          (uchildren_with u' strat (uouter_with u' strat cl' f' fuel) true true (fun t => umat cl' t 0) a b e)).
    { intros. apply t_children_with; auto. intros. now apply t_umat. }
    apply t_lift; [now apply t_ucommon|]. intros n e1 H1.
    destruct (_ && _); [apply tr_value; [now apply VU|]; intros; now apply t_finish, CH|].
    destruct (n =? length (t_prefix self)); [apply t_lift; [now apply t_umat|]; intros; now apply t_finish, CH|].
    destruct (n =? length (t_prefix that)).
    - apply tr_split; [exact H1|]. intros t. apply tr_value; [now apply VU|]. intros; now apply t_finish, CH.
    - apply tr_split; [exact H1|]. intros t. apply t_lift; [now apply t_umat|]. intros x e2 H2.
      destruct (t_children t) as [|a [|]]; [cbn; auto| |cbn; auto]. apply t_lift; [now apply t_usort2|]. intros; cbn; auto.
  Qed.
  Lemma t_inner_with {V X} (cx cx' : clos E X X) (f f' : mclos E V X) (CX : fine cx cx') (F : fine_mut f f') :
    forall fuel self that e, Q e -> trd (uinner_with u strat cx f fuel self that e) (uinner_with u' strat cx' f' fuel self that e).
  Proof using OE OC.
    assert (VU : forall v w e, Q e -> trv (uupd_inner f v w e) (uupd_inner f' v w e)).
    { intros v w e H. destruct v as [v|], w as [w|]; cbn [uupd_inner]; try (cbn; auto; fail). now apply t_ucall. }
    induction fuel as [|fuel IH]; intros self that e H; cbn [uinner_with]; [reflexivity|]. cbv zeta.
    assert (CH : forall a b e, Q e -> trd (uchildren_with u strat (uinner_with u strat cx f fuel) false false uno_conv a b e)
                                          (uchildren_with u' strat (uinner_with u' strat cx' f' fuel) false false uno_conv a b e)).
    { intros. apply t_children_with; auto. intros. now apply t_no_conv. }
    apply t_lift; [now apply t_ucommon|]. intros n e1 H1.
    destruct (_ && _); [apply tr_value; [now apply VU|]; intros; now apply t_finish, CH|].
    destruct (n =? length (t_prefix self)); [apply t_lift; [now apply t_umat|]; intros; now apply t_finish, CH|].
    destruct (n =? length (t_prefix that)); [|cbn; auto].
    apply tr_split; [exact H1|]. intros t. now apply t_finish, CH.
  Qed.
  Lemma t_left_with {V X} (cx cx' : clos E X X) (f f' : mclos E V X) (CX : fine cx cx') (F : fine_mut f f') :
    forall fuel self that e, Q e -> trd (uleft_with u strat cx f fuel self that e) (uleft_with u' strat cx' f' fuel self that e).
  Proof using OE OC.
    assert (VU : forall v w e, Q e -> trv (uupd_left f v w e) (uupd_left f' v w e)).
    { intros v w e H. destruct v as [v|], w as [w|]; cbn [uupd_left]; try (cbn; auto; fail). now apply t_ucall. }
    induction fuel as [|fuel IH]; intros self that e H; cbn [uleft_with]; [reflexivity|]. cbv zeta.
    assert (CH : forall a b e, Q e -> trd (uchildren_with u strat (uleft_with u strat cx f fuel) true false uno_conv a b e)
                                          (uchildren_with u' strat (uleft_with u' strat cx' f' fuel) true false uno_conv a b e)).
    { intros. apply t_children_with; auto. intros. now apply t_no_conv. }
    apply t_lift; [now apply t_ucommon|]. intros n e1 H1.
    destruct (_ && _); [apply tr_value; [now apply VU|]; intros; now apply t_finish, CH|].
    destruct (n =? length (t_prefix self)); [apply t_lift; [now apply t_umat|]; intros; now apply t_finish, CH|].
    destruct (n =? length (t_prefix that)); [|cbn; auto].
    apply tr_split; [exact H1|]. intros t. now apply t_finish, CH.
  Qed.
  Section Prefix.
    Context {V X : Type} (cx cx' : clos E X X) (f f' : clos E X bool) (CX : fine cx cx') (F : fine f f').
    Lemma t_uhit w e : Q e -> tri (uhit f w e) (uhit f' w e).
    Proof using F. intros H. destruct w as [w|]; cbn [uhit]; [now apply tri_call|cbn; auto]. Qed.
    Lemma t_remove_with : forall fuel (self : rtree K V) that e, Q e -> trd (uremove_with u strat cx f fuel self that e) (uremove_with u' strat cx' f' fuel self that e).
    Proof using OE OC CX F.
      induction fuel as [|fuel IH]; intros self that e H; cbn [uremove_with]; [reflexivity|]. cbv zeta.
      assert (CH : forall ta a b e, Q e -> trd (uchildren_with u strat (uremove_with u strat cx f fuel) ta false (uno_conv (V := V)) a b e)
                                               (uchildren_with u' strat (uremove_with u' strat cx' f' fuel) ta false uno_conv a b e)).
      { intros. apply t_children_with; auto. intros. now apply t_no_conv. }
      apply t_lift; [now apply t_ucommon|]. intros n e1 H1.
      destruct (_ && _); [apply t_lift; [now apply t_uhit|]; intros [] e2 H2; [cbn; auto|now apply t_finish, CH]|].
      destruct (n =? length (t_prefix that)).
      { apply t_lift; [now apply t_uhit|]. intros [] e2 H2; [cbn; auto|]. apply tr_split; [exact H2|]. intros t. now apply t_finish, CH. }
      destruct (n =? length (t_prefix self)); [|cbn; auto]. apply t_lift; [now apply t_umat|]. intros; now apply t_finish, CH.
    Qed.
    Lemma t_retain_with : forall fuel (self : rtree K V) that e, Q e -> trd (uretain_with u strat cx f fuel self that e) (uretain_with u' strat cx' f' fuel self that e).
    Proof using OE OC CX F.
      induction fuel as [|fuel IH]; intros self that e H; cbn [uretain_with]; [reflexivity|]. cbv zeta.
      assert (CH : forall ta a b e, Q e -> trd (uchildren_with u strat (uretain_with u strat cx f fuel) ta false (uno_conv (V := V)) a b e)
                                               (uchildren_with u' strat (uretain_with u' strat cx' f' fuel) ta false uno_conv a b e)).
      { intros. apply t_children_with; auto. intros. now apply t_no_conv. }
      apply t_lift; [now apply t_ucommon|]. intros n e1 H1.
      destruct (_ && _); [apply t_lift; [now apply t_uhit|]; intros [] e2 H2; [cbn; auto|now apply t_finish, CH]|].
      destruct (n =? length (t_prefix that)).
      { apply t_lift; [now apply t_uhit|]. intros [] e2 H2; [cbn; auto|]. apply tr_split; [exact H2|]. intros t. now apply t_finish, CH. }
      destruct (n =? length (t_prefix self)); [|cbn; auto]. apply t_lift; [now apply t_umat|]. intros; now apply t_finish, CH.
    Qed.
  End Prefix.

  (** ** Building a new tree *)
  Section Pure.
    Context {V X : Type} (rec rec' : rtree K V -> rtree K X -> E -> given_back E (rtree K V)) (REC : forall a b e, Q e -> tri (rec a b e) (rec' a b e)).
    Lemma t_upush {Y} (conv conv' : rtree K Y -> E -> given_back E (rtree K V)) (CV : forall t e, Q e -> tri (conv t e) (conv' t e)) :
      forall l (a : list (rtree K V)) (b : list (rtree K X)) r e, Q e -> tro snd (upush conv l a b r e) (upush conv' l a b r e).
    Proof using.
      induction l as [|y l IH]; intros a b r e H; cbn [upush]; [cbn; auto|].
      pose proof (CV y e H) as C0. destruct (conv y e) as [[e1 [x|]]|]; cbn [tri] in C0.
      - destruct C0 as [C0 ->]. now apply IH.
      - destruct C0 as [C0|[C0 ->]]; cbn; auto.
      - rewrite C0. reflexivity.
    Qed.
    Lemma tr_children ta tb ca ca' cb cb' (CA : forall t e, Q e -> tri (ca t e) (ca' t e)) (CB : forall t e, Q e -> tri (cb t e) (cb' t e)) a b e :
      Q e -> tri (uchildren u strat rec ta tb ca cb a b e) (uchildren u' strat rec' ta tb ca' cb' a b e).
    Proof using OC REC.
      intros H. unfold uchildren.
      assert (G : tro snd (gmerge (uhead_cmp u) (uop_pure rec ta tb ca cb) strat (vs_new a b, e))
                          (gmerge (uhead_cmp u') (uop_pure rec' ta tb ca' cb') strat (vs_new a b, e))).
      { apply t_merge; [reflexivity|reflexivity|intros; now apply t_head_cmp| | | |exact H].
        - intros s n Hs. cbn [uop_pure mo_from_a]. unfold uvs_adv_a. destruct (si_take_front (vs_a (fst s)) n) as [[h t]|]; [|cbn; auto]. destruct ta; [now apply t_upush|cbn; auto].
        - intros s n Hs. cbn [uop_pure mo_from_b]. unfold uvs_adv_b. destruct (si_take_front (vs_b (fst s)) n) as [[h t]|]; [|cbn; auto]. destruct tb; [now apply t_upush|cbn; auto].
        - intros [m e0] Hs. cbn [uop_pure mo_coll ucoll_pure]. destruct (vs_a m) as [|av a'], (vs_b m) as [|bv b']; try (cbn; auto; fail).
          cbn [snd] in Hs. pose proof (REC av bv e0 Hs) as R0. destruct (rec av bv e0) as [[e' [r|]]|]; cbn [tri] in R0.
          + destruct R0 as [R0 ->]. cbn. auto.
          + destruct R0 as [R0|[R0 ->]]; cbn; auto.
          + rewrite R0. reflexivity. }
      destruct (gmerge _ _ _ _) as [s|s|s|]; cbn [tro] in G; [destruct G as [G ->]|destruct G as [G ->]|destruct G as [G|[G ->]]|rewrite G]; cbn; auto.
    Qed.
  End Pure.
  Lemma t_built {V} p (v : option V) r r' : tri r r' -> tri (ubuilt (E := E) (K := K) p v r) (ubuilt p v r').
  Proof. intros H. apply tri_then; [exact H|]. intros; cbn; auto. Qed.
  Lemma t_outer {V} (cl cl' : clos E V V) (f f' : clos E (V * V) (option V)) (CL : fine cl cl') (F : fine f f') :
    forall fuel a b e, Q e -> tri (uouter u strat cl f fuel a b e) (uouter u' strat cl' f' fuel a b e).
  Proof using OE OC OL.
    assert (VU : forall v w e, Q e -> tri (uval_outer cl f v w e) (uval_outer cl' f' v w e)).
    { intros v w e H. destruct v as [v|], w as [w|]; cbn [uval_outer]; [now apply tri_call|now apply t_uclone|now apply t_uclone|cbn; auto]. }
    induction fuel as [|fuel IH]; intros a b e H; cbn [uouter]; [reflexivity|]. cbv zeta.
    assert (CH : forall a b e, Q e -> tri (uchildren u strat (uouter u strat cl f fuel) true true (fun t => umat cl t 0) (fun t => umat cl t 0) a b e)
                                          (uchildren u' strat (uouter u' strat cl' f' fuel) true true (fun t => umat cl' t 0) (fun t => umat cl' t 0) a b e)).
    { intros. apply tr_children; auto; intros; now apply t_umat. }
    apply tri_then; [now apply t_ucommon|]. intros n e1 H1.
    destruct (_ && _); [apply tri_then; [now apply VU|]; intros; now apply t_built, CH|].
    destruct (n =? length (t_prefix a)).
    { apply tri_then; [now apply t_umat|]. intros x e2 H2. apply tri_then; [now apply t_uclone|]. intros; now apply t_built, CH. }
    destruct (n =? length (t_prefix b)).
    { apply tri_then; [now apply t_umat|]. intros x e2 H2. apply tri_then; [now apply t_uclone|]. intros; now apply t_built, CH. }
    apply tri_then; [now apply t_umat|]. intros x e2 H2. apply tri_then; [now apply t_umat|]. intros; now apply t_built, t_usort2.
  Qed.
  Lemma t_inner {V X} (cl cl' : clos E V V) (cx cx' : clos E X X) (f f' : clos E (V * X) (option V)) (CL : fine cl cl') (CX : fine cx cx') (F : fine f f') :
    forall fuel a b e, Q e -> tri (uinner u strat cl cx f fuel a b e) (uinner u' strat cl' cx' f' fuel a b e).
  Proof using OE OC.
    assert (VU : forall v w e, Q e -> tri (uval_inner f v w e) (uval_inner f' v w e)).
    { intros v w e H. destruct v as [v|], w as [w|]; cbn [uval_inner]; try (cbn; auto; fail). now apply tri_call. }
    induction fuel as [|fuel IH]; intros a b e H; cbn [uinner]; [reflexivity|]. cbv zeta.
    assert (CH : forall a b e, Q e -> tri (uchildren u strat (uinner u strat cl cx f fuel) false false (fun t => umat cl t 0) uno_conv a b e)
                                          (uchildren u' strat (uinner u' strat cl' cx' f' fuel) false false (fun t => umat cl' t 0) uno_conv a b e)).
    { intros. apply tr_children; auto; intros; [now apply t_umat|now apply t_no_conv]. }
    apply tri_then; [now apply t_ucommon|]. intros n e1 H1.
    destruct (_ && _); [apply tri_then; [now apply VU|]; intros; now apply t_built, CH|].
    destruct (n =? length (t_prefix a)); [apply tri_then; [now apply t_umat|]; intros; now apply t_built, CH|].
    destruct (n =? length (t_prefix b)); [apply tri_then; [now apply t_umat|]; intros; now apply t_built, CH|].
    apply t_built. cbn. auto.
  Qed.
  Lemma t_left {V X} (cl cl' : clos E V V) (cx cx' : clos E X X) (f f' : clos E (V * option X) (option V)) (CL : fine cl cl') (CX : fine cx cx') (F : fine f f') :
    forall fuel a b e, Q e -> tri (uleft u strat cl cx f fuel a b e) (uleft u' strat cl' cx' f' fuel a b e).
  Proof using OE OC.
    assert (VU : forall v w e, Q e -> tri (uval_left f v w e) (uval_left f' v w e)).
    { intros v w e H. destruct v as [v|]; cbn [uval_left]; try (cbn; auto; fail). now apply tri_call. }
    induction fuel as [|fuel IH]; intros a b e H; cbn [uleft]; [reflexivity|]. cbv zeta.
    assert (CH : forall a b e, Q e -> tri (uchildren u strat (uleft u strat cl cx f fuel) true false (fun t => umat cl t 0) uno_conv a b e)
                                          (uchildren u' strat (uleft u' strat cl' cx' f' fuel) true false (fun t => umat cl' t 0) uno_conv a b e)).
    { intros. apply tr_children; auto; intros; [now apply t_umat|now apply t_no_conv]. }
    apply tri_then; [now apply t_ucommon|]. intros n e1 H1.
    destruct (_ && _); [apply tri_then; [now apply VU|]; intros; now apply t_built, CH|].
    destruct (n =? length (t_prefix a)).
    { apply tri_then; [now apply t_umat|]. intros x e2 H2. apply tri_then; [now apply t_uclone|]. intros; now apply t_built, CH. }
    destruct (n =? length (t_prefix b)); [apply tri_then; [now apply t_umat|]; intros; now apply t_built, CH|].
    apply tri_then; [now apply t_uclone|]. intros v e2 H2. apply t_built. now apply t_umat_all.
  Qed.

  (** ** Relations *)
  Lemma t_ubool {V X} (rec rec' : rtree K V -> rtree K X -> E -> given_back E bool) (REC : forall a b e, Q e -> tri (rec a b e) (rec' a b e)) ta a b e :
    Q e -> tri (ubool u strat rec ta a b e) (ubool u' strat rec' ta a b e).
  Proof using OC.
    intros H. unfold ubool.
    assert (ST : forall o e, Q e -> tro snd (ustep (K := K) (V := V) (X := X) o e) (ustep o e)) by (intros [s|s|s|] e0 H0; cbn; auto).
    assert (G : tro snd (gmerge (uhead_cmp u) (uop_bool rec ta) strat (bs_new a b, e)) (gmerge (uhead_cmp u') (uop_bool rec' ta) strat (bs_new a b, e))).
    { apply t_merge; [reflexivity|reflexivity|intros; now apply t_head_cmp| | | |exact H].
      - intros s n Hs. now apply ST.
      - intros s n Hs. now apply ST.
      - intros [m e0] Hs. cbn [uop_bool mo_coll ucoll_bool]. destruct (bs_a m) as [|av a'], (bs_b m) as [|bv b']; try (cbn; auto; fail).
        cbn [snd] in Hs. pose proof (REC av bv e0 Hs) as R0. destruct (rec av bv e0) as [[e' [r|]]|]; cbn [tri] in R0.
        + destruct R0 as [R0 ->]. now apply ST.
        + destruct R0 as [R0|[R0 ->]]; cbn; auto.
        + rewrite R0. reflexivity. }
    destruct (gmerge _ _ _ _) as [s|s|s|]; cbn [tro] in G; [destruct G as [G ->]|destruct G as [G ->]|destruct G as [G|[G ->]]|rewrite G]; cbn; auto.
  Qed.
  Lemma t_uany {Y} (p p' : Y -> E -> given_back E bool) (P : forall y e, Q e -> tri (p y e) (p' y e)) : forall l e, Q e -> tri (uany p l e) (uany p' l e).
  Proof. induction l as [|x l IH]; intros e H; cbn [uany]; [cbn; auto|]. apply tri_then; [now apply P|]. intros [] e1 H1; [cbn; auto|now apply IH]. Qed.
  Lemma t_uall {Y} (p p' : Y -> E -> given_back E bool) (P : forall y e, Q e -> tri (p y e) (p' y e)) : forall l e, Q e -> tri (uall p l e) (uall p' l e).
  Proof. induction l as [|x l IH]; intros e H; cbn [uall]; [cbn; auto|]. apply tri_then; [now apply P|]. intros [] e1 H1; [now apply IH|cbn; auto]. Qed.
  Lemma t_intersects0 {V X} : forall fuel (l : rtree K V) lp (r : rtree K X) rp e, Q e -> tri (uintersects0 u strat fuel l lp r rp e) (uintersects0 u' strat fuel l lp r rp e).
  Proof using OE OC.
    induction fuel as [|fuel IH]; intros l lp r rp e H; cbn [uintersects0]; [reflexivity|].
    apply tri_then; [now apply t_ucommon|]. intros n e1 H1.
    destruct (_ && _).
    { destruct (match t_value l with Some _ => _ | None => _ end); [cbn; auto|]. apply t_ubool; auto. }
    destruct (n =? length lp); [apply t_uany; auto|]. destruct (n =? length rp); [apply t_uany; auto|cbn; auto].
  Qed.
  Lemma t_is_subset0 {V X} : forall fuel (l : rtree K V) lp (r : rtree K X) rp e, Q e -> tri (uis_subset0 u strat fuel l lp r rp e) (uis_subset0 u' strat fuel l lp r rp e).
  Proof using OE OC.
    induction fuel as [|fuel IH]; intros l lp r rp e H; cbn [uis_subset0]; [reflexivity|].
    apply tri_then; [now apply t_ucommon|]. intros n e1 H1.
    destruct (_ && _).
    { destruct (match t_value l with Some _ => _ | None => _ end); [|cbn; auto]. apply tri_then; [|intros; cbn; auto].
      apply t_ubool; auto. intros a b e0 H0. apply tri_then; [now apply IH|intros; cbn; auto]. }
    destruct (n =? length lp); [destruct (t_value l); [cbn; auto|apply t_uall; auto]|]. destruct (n =? length rp); [apply t_uany; auto|cbn; auto].
  Qed.
End Quiet.

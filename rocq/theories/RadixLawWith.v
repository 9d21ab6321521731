(** The pieces of the radix tree operations when the comparisons answer like an order: common prefix, copy of a subtree,
    in-place merge of children. *)
From Verif Require Export RadixLawMerge RadixLawSpec.
From Verif Require Import RadixEffMerge PersistFacts.

Section Pieces.
  Context {K : Type} {kcmp : K -> K -> comparison} (L : OrdLaws kcmp) (EQ : OrdEq kcmp).
  Context {E : Type} (u : ucode E K) (AN : answers_like kcmp u).
  Notation wf := (wf kcmp).
  Notation wfc := (wfc (kcmp := kcmp)).
  Notation hord := (hord (kcmp := kcmp)).
  Notation child := (child (kcmp := kcmp)).
  Notation lk := (lk kcmp).
  Notation lkc := (lkc (kcmp := kcmp)).

  (** ** the common prefix *)
  Lemma ucommon_law a : forall b e, exists e' r, ucommon u a b e = Some (e', r) /\
    match r with Ret n => n = common_prefix kcmp a b | Throw => True end.
  Proof using AN.
    induction a as [|x a IH]; intros b e; cbn [ucommon common_prefix]; [now exists e, (Ret 0)|].
    destruct b as [|y b]; [now exists e, (Ret 0)|]. destruct (u_eq u e (x, y)) as [e1 [b1|]] eqn:Q; cbn [then_].
    - apply (an_eq kcmp u AN) in Q. unfold keqb. destruct b1.
      + destruct (kcmp x y); try discriminate. destruct (IH b e1) as (e2 & r & -> & H). cbn [then_]. destruct r as [n|].
        * exists e2, (Ret (S n)). split; auto.
        * exists e2, Throw. split; auto.
      + exists e1, (Ret 0). split; auto. now destruct (kcmp x y).
    - exists e1, Throw. split; auto.
  Qed.

  (** ** copies of subtrees *)
  Section Mat.
    Context {V : Type} (cl : clos E V V).
    Definition once (v v' : option V) : Prop :=
      match v, v' with
      | None, None => True
      | Some v, Some v' => exists e e', cl e v = (e', Ret v')
      | _, _ => False
      end.
    Definition recopied (t t' : rtree K V) : Prop :=
      t_prefix t' = t_prefix t /\ t_is_empty t' = t_is_empty t /\ (forall q, wf q t -> wf q t') /\
      forall k, once (lk t k) (lk t' k).
    Lemma recopied_hd t t' : recopied t t' -> hd_of t' = hd_of t.
    Proof. intros (H & _). unfold hd_of. now rewrite H. Qed.
    Lemma recopied_list q c c' : Forall2 recopied c c' -> wfc q c -> wfc q c'.
    Proof.
      intros F. induction F as [|x x' c c' H F IH]; intros W; [exact W|].
      apply wfc_cons in W as (H1 & H2 & H3 & H4 & W). pose proof H as (P1 & P2 & P3 & P4).
      apply wfc_cons. split; [now rewrite P1|]. split.
      - clear -F H2 P1. induction F as [|y y' c c' H F IH]; [constructor|]. inversion H2; subst. constructor; auto.
        unfold head_lt in *. destruct H as (Q & _). now rewrite P1, Q.
      - split; [now rewrite P2|]. auto.
    Qed.
    Lemma recopied_lkc c c' k : Forall2 recopied c c' -> once (lkc c k) (lkc c' k).
    Proof.
      intros F. induction F as [|x x' c c' H F IH]; [exact I|]. rewrite !lkc_cons. destruct H as (_ & _ & _ & P4). specialize (P4 k).
      destruct (lk x k), (lk x' k); cbn [once] in *; tauto.
    Qed.
    Lemma once_none v v' : once v v' -> (v = None <-> v' = None).
    Proof. destruct v, v'; cbn [once]; try tauto. intros _. split; discriminate. Qed.
    Lemma umat_law (t : rtree K V) : forall n e, exists e' r, umat cl t n e = Some (e', r) /\
      match r with
      | Ret t' => n < length (t_prefix t) /\ recopied (Node (skipn n (t_prefix t)) (t_value t) (t_children t)) t'
      | Throw => True
      end.
    Proof.
      induction t as [p v c IH] using rtree_ind'. intros n e. cbn [umat t_prefix t_value t_children].
      destruct (Nat.ltb_spec n (length p)) as [Ln|_]; [|now exists e, Throw].
      assert (HV : exists e' r, uclone cl v e = Some (e', r) /\ match r with Ret v' => once v v' | Throw => True end).
      { unfold uclone. destruct v as [v|]; [|now exists e, (Ret None)]. destruct (cl e v) as [e1 [v1|]] eqn:Q; cbn [then_].
        - exists e1, (Ret (Some v1)). split; [reflexivity|]. cbn [once]. eauto.
        - now exists e1, Throw. }
      destruct HV as (e1 & [v'|] & -> & HV); cbn [then_]; [|now exists e1, Throw].
      set (go := fix go (l : list (rtree K V)) (e : E) : given_back E (list (rtree K V)) := match l with [] => _ | _ => _ end).
      assert (HC : forall e, exists e' r, go c e = Some (e', r) /\ match r with Ret c' => Forall2 recopied c c' | Throw => True end).
      { clear e e1. induction c as [|x c IHc]; intros e; cbn [go]; [exists e, (Ret []); split; [reflexivity|constructor]|].
        apply Forall_cons_iff in IH as [IHx IH]. destruct (IHx 0 e) as (e1 & [x'|] & -> & Hx); cbn [then_]; [|now exists e1, Throw].
        destruct (IHc IH e1) as (e2 & [c'|] & -> & Hc); cbn [then_]; [|now exists e2, Throw].
        exists e2, (Ret (x' :: c')). split; [reflexivity|]. constructor; auto. destruct Hx as [_ Hx]. cbn [skipn] in Hx. now destruct x. }
      destruct (HC e1) as (e2 & [c'|] & -> & HC'); cbn [then_]; [|now exists e2, Throw].
      eexists e2, (Ret _). split; [reflexivity|]. split; [exact Ln|]. pose proof (Forall2_len _ _ _ HC') as Len. split; [reflexivity|]. split; [|split].
      - cbn [t_is_empty]. destruct v, v'; try (now destruct HV); auto. destruct c, c'; try discriminate; auto.
      - intros q. rewrite !wf_node. intros [W1 W2]. split; [now apply (recopied_list q c c')|]. intros Q. destruct (W2 Q) as [W3 W4].
        split.
        + intros Hv Hc. apply W3; [now apply (once_none v v')|]. subst c'. now destruct c.
        + intros Hv. rewrite <- Len. apply W4. now apply (once_none v v').
      - intros k. rewrite !lk_node. destruct (strip kcmp (skipn n p) k) as [[|x r]|]; [exact HV|now apply recopied_lkc|exact I].
    Qed.
    Lemma umat0_law t e e' t' : umat cl t 0 e = Some (e', Ret t') -> recopied t t'.
    Proof. intros H. destruct (umat_law t 0 e) as (e1 & r & Q & R). rewrite H in Q. injection Q as <- <-. destruct R as [_ R]. cbn [skipn] in R. now destruct t. Qed.
  End Mat.

  (** ** in-place merge of children *)
  Section Children.
    Context {V X : Type} (strat : nat -> nat -> bool) (rec : rtree K V -> rtree K X -> E -> done (rtree K V * E)).
    Context (ta tb : bool) (conv : rtree K X -> E -> given_back E (rtree K V)).
    Notation A := (rtree K V). Notation B := (rtree K X).
    Context (cb : B -> A -> Prop) (Q : A -> B -> A -> Prop) (q qb : bool) (a0 : list A) (b0 : list B).
    Context (Wa : wfc q a0) (Wb : wfc qb b0).
    Context (HC : tb = true -> forall y e e' t, In y b0 -> conv y e = Some (e', Ret t) ->
                  cb y t /\ hd_of t = hd_of y /\ wf q t /\ (q = true -> t_is_empty t = false)).
    Context (HR : forall x y e e' t, In x a0 -> In y b0 -> hd_of x = hd_of y -> rec x y e = Done (t, e') ->
                  Q x y t /\ wf q t /\ (t_is_empty t = false -> hd_of t = hd_of x)).
    Notation ca := (fun x t : A => t = x).
    Notation minv := (minv (kcmp := kcmp) ta tb ca cb Q q a0 b0).
    Notation all_slots := (all_slots (kcmp := kcmp) ta tb ca cb Q q a0 b0).
    Notation some_slots := (some_slots (kcmp := kcmp) ta tb ca cb Q q a0 b0).
    Notation ist := (iprstate A B * E)%type.
    Notation st := (fun s : ist => minv (bd_src (ipr_a (fst s))) (ipr_b (fst s)) (bd_tgt (ipr_a (fst s)))).
    Notation bad := (fun s : ist => some_slots (bd_tgt (ipr_a (fst s)))).
    Notation never := (fun _ : ist => False).
    Notation OP := (uop_with rec ta tb conv).

    Let Sa : ksorted (cmp := hord) hd_of a0 := wfc_ksorted q a0 Wa.
    Let Sb : ksorted (cmp := hord) hd_of b0 := wfc_ksorted qb b0 Wb.
    Lemma ne_a x : In x a0 -> t_prefix x <> [].
    Proof using Wa. intros H. now apply (wfc_In _ _ _ Wa H). Qed.
    Lemma ne_b y : In y b0 -> t_prefix y <> [].
    Proof using Wb. intros H. now apply (wfc_In _ _ _ Wb H). Qed.

    Lemma minv_as a1 : forall a b l, minv (a1 ++ a) b l -> (forall x y, In x a1 -> In y b -> hord (hd_of x) (hd_of y) = Lt) ->
      minv a b (l ++ if ta then a1 else []).
    Proof using EQ Sa Sb Wa Wb.
      induction a1 as [|x a1 IH]; intros a b l M H.
      - destruct ta; now rewrite app_nil_r.
      - cbn [app] in M. pose proof (proj1 (minv_incl _ _ _ _ _ _ _ _ _ _ _ M) x (or_introl eq_refl)) as Ix.
        destruct (wfc_In _ _ _ Wa Ix) as (P1 & P2 & P3).
        pose proof (minv_a EQ ta tb ca cb Q q a0 b0 Sa Sb ne_a x (a1 ++ a) b l x M) as M1.
        specialize (M1 (fun y Hy => H x y (or_introl eq_refl) Hy)).
        assert (T : if ta then x = x /\ hd_of x = hd_of x /\ wf q x /\ (q = true -> t_is_empty x = false) else True) by (destruct ta; auto).
        specialize (M1 T). apply IH in M1; [|intros; apply H; auto; now right].
        destruct ta; [rewrite <- app_assoc in M1; exact M1|]. now rewrite app_nil_r in M1.
    Qed.
    Lemma uextend_law b1 : forall b2 bd e, tb = true -> minv (bd_src bd) (b1 ++ b2) (bd_tgt bd) ->
      (forall x y, In x (bd_src bd) -> In y b1 -> hord (hd_of x) (hd_of y) = Gt) ->
      lpost (fun s' : ist => st s' /\ bd_src (ipr_a (fst s')) = bd_src bd /\ ipr_b (fst s') = b2) never bad (uextend conv (length b1) bd (b1 ++ b2) e).
    Proof using EQ L Sa Sb Wa Wb HC.
      induction b1 as [|y b1 IH]; intros b2 bd e Tb M H; cbn [length uextend app].
      - cbn [lpost fst snd ipr_a ipr_b]. auto.
      - destruct (conv y e) as [[e' [t|]]|] eqn:Qc; [| |exact I].
        + pose proof (proj2 (minv_incl _ _ _ _ _ _ _ _ _ _ _ M) y (or_introl eq_refl)) as Iy.
          destruct (HC Tb y e e' t Iy Qc) as (C1 & C2 & C3 & C4).
          pose proof (minv_b L EQ ta tb ca cb Q q a0 b0 Sa Sb ne_b y (bd_src bd) (b1 ++ b2) (bd_tgt bd) t M) as M1.
          specialize (M1 (fun x Hx => H x y Hx (or_introl eq_refl))). 
          assert (T : if tb then cb y t /\ hd_of t = hd_of y /\ wf q t /\ (q = true -> t_is_empty t = false) else True) by (rewrite Tb; auto).
          specialize (M1 T). assert (Z : (if tb then [t] else []) = [t]) by (now rewrite Tb). rewrite Z in M1.
          apply (IH b2 (bd_push bd t) e' Tb); [exact M1|]. intros x z Hx Hz. apply H; auto. now right.
        + cbn [lpost fst ipr_a]. eapply (minv_part EQ); exact M.
    Qed.
    Lemma minv_bs b1 : forall a b l, tb = false -> minv a (b1 ++ b) l -> (forall x y, In x a -> In y b1 -> hord (hd_of x) (hd_of y) = Gt) -> minv a b l.
    Proof using EQ L Sa Sb Wa Wb.
      induction b1 as [|y b1 IH]; intros a b l Tb M H; [exact M|].
      pose proof (minv_b L EQ ta tb ca cb Q q a0 b0 Sa Sb ne_b y a (b1 ++ b) l (Node [] None []) M) as M1.
      specialize (M1 (fun x Hx => H x y Hx (or_introl eq_refl))).
      assert (T : forall P : Prop, if tb then P else True) by (intros; now rewrite Tb).
      specialize (M1 (T _)). assert (Z : (if tb then [Node [] None []] else []) = @nil A) by (now rewrite Tb). rewrite Z, app_nil_r in M1.
      apply IH; auto. intros; apply H; auto. now right.
    Qed.

    Lemma uwith_lawful : lawful_steps (kcmp := hord) hd_of hd_of (uhead_cmp u) OP st never bad.
    Proof using EQ L AN Sa Sb Wa Wb HC HR.
      constructor.
      - intros s Is. cbn [mo_a mo_b uop_with]. eapply (minv_sorted); eauto.
      - intros [m e] a1 a2 Is Qa _ Hl. cbn [mo_a mo_b mo_from_a uop_with fst snd] in *. unfold uadv_a. cbn [lpost fst snd ipr_a ipr_b].
        assert (C1 : bd_src (bd_consume (ipr_a m) (length a1) ta) = a2).
        { unfold bd_consume. destruct ta; cbn [bd_src]; now rewrite Qa, skipn_app_exact. }
        assert (C2 : bd_tgt (bd_consume (ipr_a m) (length a1) ta) = bd_tgt (ipr_a m) ++ if ta then a1 else []).
        { unfold bd_consume. destruct ta; cbn [bd_tgt]; [now rewrite Qa, firstn_app_exact|now rewrite app_nil_r]. }
        rewrite C1, C2. rewrite Qa in Is. split; [|now split]. now apply (minv_as a1 a2).
      - intros [m e] b1 b2 Is Qb _ Hl. cbn [mo_a mo_b mo_from_b uop_with fst snd] in *. unfold uadv_b. cbn [fst snd].
        rewrite Qb in *. destruct (Bool.bool_dec tb true) as [Tb|Tb].
        + assert (Z : forall (T : Type) (x y : T), (if tb then x else y) = x) by (intros; now rewrite Tb). rewrite Z.
          apply (uextend_law b1 b2 (ipr_a m) e Tb Is Hl).
        + apply Bool.not_true_is_false in Tb. assert (Z : forall (T : Type) (x y : T), (if tb then x else y) = y) by (intros; now rewrite Tb).
          rewrite Z. cbn [lpost fst snd ipr_a ipr_b]. rewrite skipn_app_exact. split; [|now split]. now apply (minv_bs b1 _ _ _ Tb Is).
      - intros [m e] x a y b Is Qa Qb Qk. cbn [mo_a mo_b mo_coll uop_with fst snd] in *. unfold ucoll_with. rewrite Qa, Qb in *.
        pose proof (proj1 (minv_incl _ _ _ _ _ _ _ _ _ _ _ Is) x (or_introl eq_refl)) as Ix.
        pose proof (proj2 (minv_incl _ _ _ _ _ _ _ _ _ _ _ Is) y (or_introl eq_refl)) as Iy.
        pose proof (proj1 (hord_eq EQ _ _) Qk) as Hh.
        destruct (rec x y e) as [[t e']|[t e']|] eqn:QR; [| |exact I].
        + destruct (HR x y e e' t Ix Iy Hh QR) as (R1 & R2 & R3). unfold uadv_a, uadv_b, bd_consume.
          pose proof (minv_c EQ ta tb ca cb Q q a0 b0 Sa Sb ne_a x y a b _ t Is Qk R1 R2 R3) as M.
          destruct (t_is_empty t); cbn [negb obind lpost fst snd ipr_a ipr_b bd_src bd_tgt firstn skipn]; (split; [|now split]).
          * now rewrite app_nil_r in M.
          * exact M.
        + cbn [lpost fst ipr_a bd_tgt]. eapply (minv_part EQ); exact Is.
      - intros [m e] x y s' r Is Hx Hy. cbn [mo_a mo_b uop_with fst snd] in *. unfold uhead_cmp. cbn [fst snd].
        pose proof (ne_a x (proj1 (minv_incl _ _ _ _ _ _ _ _ _ _ _ Is) x Hx)) as Px.
        pose proof (ne_b y (proj2 (minv_incl _ _ _ _ _ _ _ _ _ _ _ Is) y Hy)) as Py.
        unfold hd_of. destruct (t_prefix x) as [|h p]; [congruence|]. destruct (t_prefix y) as [|h' p']; [congruence|].
        destruct (u_cmp u e (h, h')) as [e' [c|]] eqn:Qc; intros [= <- <-]; cbn [fst snd].
        + apply (an_cmp kcmp u AN) in Qc. subst c. auto.
        + eapply (minv_part EQ); exact Is.
    Qed.

    Lemma uchildren_with_law e : match uchildren_with u strat rec ta tb conv a0 b0 e with
      | Done (l, _) => all_slots l
      | Unwound (l, _) => some_slots l
      | DoneNoFuel => True
      end.
    Proof using EQ L AN Sa Sb Wa Wb HC HR.
      unfold uchildren_with.
      pose proof (gmerge_law (hord_laws L) hd_of hd_of (uhead_cmp u) OP st never bad uwith_lawful strat (ipr_new a0 b0, e)) as G.
      specialize (G (minv_start ta tb ca cb Q q a0 b0)).
      destruct (gmerge _ _ _ _) as [s|s|s|]; cbn [to_done lpost] in *.
      - destruct G as (G1 & G2 & G3). cbn [mo_a mo_b uop_with] in G2, G3. rewrite G2, G3 in G1. now apply minv_final.
      - destruct G.
      - exact G.
      - exact I.
    Qed.
  End Children.
End Pieces.

(** The radix tree combinations that build a new tree, when the comparisons answer like an order. *)
From Verif Require Export RadixLawQuest RadixLawOps.
From Verif Require Import RadixEffMerge RadixComb RadixEffComb PersistFacts RadixUserPure.

(** ** merging the children *)
Section Children.
  Context {K : Type} {kcmp : K -> K -> comparison} (L : OrdLaws kcmp) (EQ : OrdEq kcmp).
  Context {E : Type} (u : ucode E K) (AN : answers_like kcmp u) (strat : nat -> nat -> bool).
  Notation wf := (wf kcmp).
  Notation wfc := (wfc (kcmp := kcmp)).
  Notation hord := (hord (kcmp := kcmp)).
  Context {V X : Type} (rec : rtree K V -> rtree K X -> E -> given_back E (rtree K V)).
  Notation A := (rtree K V). Notation B := (rtree K X).
  Context (ta tb : bool) (fa : A -> E -> given_back E A) (fb : B -> E -> given_back E A).
  Context (ca : A -> A -> Prop) (cb : B -> A -> Prop) (Q : A -> B -> A -> Prop) (q qa qb : bool) (a0 : list A) (b0 : list B).
  Context (Wa : wfc qa a0) (Wb : wfc qb b0).
  Context (HA : ta = true -> forall x e e' t, In x a0 -> fa x e = Some (e', Ret t) ->
                ca x t /\ hd_of t = hd_of x /\ wf q t /\ (q = true -> t_is_empty t = false)).
  Context (HB : tb = true -> forall y e e' t, In y b0 -> fb y e = Some (e', Ret t) ->
                cb y t /\ hd_of t = hd_of y /\ wf q t /\ (q = true -> t_is_empty t = false)).
  Context (HR : forall x y e e' t, In x a0 -> In y b0 -> hd_of x = hd_of y -> rec x y e = Some (e', Ret t) ->
                Q x y t /\ wf q t /\ (t_is_empty t = false -> hd_of t = hd_of x)).
  Notation minv := (minv (kcmp := kcmp) ta tb ca cb Q q a0 b0).
  Notation all_slots := (all_slots (kcmp := kcmp) ta tb ca cb Q q a0 b0).
  Notation vst := (vstate A B A * E)%type.
  Notation st := (fun s : vst => minv (vs_a (fst s)) (vs_b (fst s)) (vs_r (fst s))).
  Notation never := (fun _ : vst => False).
  Notation any := (fun _ : vst => True).
  Notation OP := (uop_pure rec ta tb fa fb).
  Let Sa : ksorted (cmp := hord) hd_of a0 := wfc_ksorted qa a0 Wa.
  Let Sb : ksorted (cmp := hord) hd_of b0 := wfc_ksorted qb b0 Wb.
  Lemma pne_a x : In x a0 -> t_prefix x <> [].
  Proof using Wa. intros H. now apply (wfc_In _ _ _ Wa H). Qed.
  Lemma pne_b y : In y b0 -> t_prefix y <> [].
  Proof using Wb. intros H. now apply (wfc_In _ _ _ Wb H). Qed.
  Lemma push_a a1 : forall a b r e, ta = true -> minv (a1 ++ a) b r -> (forall x y, In x a1 -> In y b -> hord (hd_of x) (hd_of y) = Lt) ->
    lpost (fun s : vst => st s /\ vs_a (fst s) = a /\ vs_b (fst s) = b) never any (upush fa a1 a b r e).
  Proof using EQ Sa Sb Wa Wb HA.
    induction a1 as [|x a1 IH]; intros a b r e Ta M H; cbn [upush app].
    - cbn [lpost fst vs_a vs_b vs_r]. auto.
    - destruct (fa x e) as [[e' [t|]]|] eqn:Qc; [|exact I..].
      pose proof (proj1 (minv_incl _ _ _ _ _ _ _ _ _ _ _ M) x (or_introl eq_refl)) as Ix.
      destruct (HA Ta x e e' t Ix Qc) as (C1 & C2 & C3 & C4). cbn [app] in M.
      pose proof (minv_a EQ ta tb ca cb Q q a0 b0 Sa Sb pne_a x (a1 ++ a) b r t M (fun y Hy => H x y (or_introl eq_refl) Hy)) as M1.
      assert (T : if ta then ca x t /\ hd_of t = hd_of x /\ wf q t /\ (q = true -> t_is_empty t = false) else True) by (rewrite Ta; auto).
      specialize (M1 T). assert (Z : (if ta then [t] else []) = [t]) by (now rewrite Ta). rewrite Z in M1.
      apply (IH a b (r ++ [t]) e' Ta M1). intros; apply H; auto. now right.
  Qed.
  Lemma push_b b1 : forall a b r e, tb = true -> minv a (b1 ++ b) r -> (forall x y, In x a -> In y b1 -> hord (hd_of x) (hd_of y) = Gt) ->
    lpost (fun s : vst => st s /\ vs_a (fst s) = a /\ vs_b (fst s) = b) never any (upush fb b1 a b r e).
  Proof using EQ L Sa Sb Wa Wb HB.
    induction b1 as [|y b1 IH]; intros a b r e Tb M H; cbn [upush app].
    - cbn [lpost fst vs_a vs_b vs_r]. auto.
    - destruct (fb y e) as [[e' [t|]]|] eqn:Qc; [|exact I..].
      pose proof (proj2 (minv_incl _ _ _ _ _ _ _ _ _ _ _ M) y (or_introl eq_refl)) as Iy.
      destruct (HB Tb y e e' t Iy Qc) as (C1 & C2 & C3 & C4). cbn [app] in M.
      pose proof (minv_b L EQ ta tb ca cb Q q a0 b0 Sa Sb pne_b y a (b1 ++ b) r t M (fun x Hx => H x y Hx (or_introl eq_refl))) as M1.
      assert (T : if tb then cb y t /\ hd_of t = hd_of y /\ wf q t /\ (q = true -> t_is_empty t = false) else True) by (rewrite Tb; auto).
      specialize (M1 T). assert (Z : (if tb then [t] else []) = [t]) by (now rewrite Tb). rewrite Z in M1.
      apply (IH a b (r ++ [t]) e' Tb M1). intros; apply H; auto. now right.
  Qed.
  Lemma skip_a a1 : forall a b l, ta = false -> minv (a1 ++ a) b l -> (forall x y, In x a1 -> In y b -> hord (hd_of x) (hd_of y) = Lt) -> minv a b l.
  Proof using EQ L Sa Sb Wa Wb.
    induction a1 as [|x a1 IH]; intros a b l Ta M H; [exact M|].
    pose proof (minv_a EQ ta tb ca cb Q q a0 b0 Sa Sb pne_a x (a1 ++ a) b l (Node [] None []) M (fun y Hy => H x y (or_introl eq_refl) Hy)) as M1.
    assert (T : forall P : Prop, if ta then P else True) by (intros; now rewrite Ta).
    specialize (M1 (T _)). assert (Z : (if ta then [Node [] None []] else []) = @nil A) by (now rewrite Ta). rewrite Z, app_nil_r in M1.
    apply IH; auto. intros; apply H; auto. now right.
  Qed.
  Lemma skip_b b1 : forall a b l, tb = false -> minv a (b1 ++ b) l -> (forall x y, In x a -> In y b1 -> hord (hd_of x) (hd_of y) = Gt) -> minv a b l.
  Proof using EQ L Sa Sb Wa Wb.
    induction b1 as [|y b1 IH]; intros a b l Tb M H; [exact M|].
    pose proof (minv_b L EQ ta tb ca cb Q q a0 b0 Sa Sb pne_b y a (b1 ++ b) l (Node [] None []) M (fun x Hx => H x y Hx (or_introl eq_refl))) as M1.
    assert (T : forall P : Prop, if tb then P else True) by (intros; now rewrite Tb).
    specialize (M1 (T _)). assert (Z : (if tb then [Node [] None []] else []) = @nil A) by (now rewrite Tb). rewrite Z, app_nil_r in M1.
    apply IH; auto. intros; apply H; auto. now right.
  Qed.
  Lemma upure_lawful : lawful_steps (kcmp := hord) hd_of hd_of (uhead_cmp u) OP st never any.
  Proof using EQ L AN Sa Sb Wa Wb HA HB HR.
    constructor.
    - intros s Is. cbn [mo_a mo_b uop_pure]. eapply (minv_sorted); eauto.
    - intros [m e] a1 a2 Is Qa _ Hl. cbn [mo_a mo_b mo_from_a uop_pure fst snd] in *. unfold uvs_adv_a. cbn [fst snd].
      rewrite take_front_ok by (rewrite Qa, app_length; lia). rewrite Qa in *. rewrite firstn_app_exact, skipn_app_exact.
      destruct (Bool.bool_dec ta true) as [Ta|Ta].
      + assert (Z : forall (T : Type) (x y : T), (if ta then x else y) = x) by (intros; now rewrite Ta). rewrite Z.
        now apply (push_a a1 a2 _ _ e Ta Is).
      + apply Bool.not_true_is_false in Ta. assert (Z : forall (T : Type) (x y : T), (if ta then x else y) = y) by (intros; now rewrite Ta).
        rewrite Z. cbn [lpost fst snd vs_a vs_b vs_r]. split; [|now split]. now apply (skip_a a1 a2 _ _ Ta Is).
    - intros [m e] b1 b2 Is Qb _ Hl. cbn [mo_a mo_b mo_from_b uop_pure fst snd] in *. unfold uvs_adv_b. cbn [fst snd].
      rewrite take_front_ok by (rewrite Qb, app_length; lia). rewrite Qb in *. rewrite firstn_app_exact, skipn_app_exact.
      destruct (Bool.bool_dec tb true) as [Tb|Tb].
      + assert (Z : forall (T : Type) (x y : T), (if tb then x else y) = x) by (intros; now rewrite Tb). rewrite Z.
        now apply (push_b b1 _ b2 _ e Tb Is).
      + apply Bool.not_true_is_false in Tb. assert (Z : forall (T : Type) (x y : T), (if tb then x else y) = y) by (intros; now rewrite Tb).
        rewrite Z. cbn [lpost fst snd vs_a vs_b vs_r]. split; [|now split]. now apply (skip_b b1 _ _ _ Tb Is).
    - intros [m e] x a y b Is Qa Qb Qk. cbn [mo_a mo_b mo_coll uop_pure fst snd] in *. unfold ucoll_pure. rewrite Qa, Qb in *.
      pose proof (proj1 (minv_incl _ _ _ _ _ _ _ _ _ _ _ Is) x (or_introl eq_refl)) as Ix.
      pose proof (proj2 (minv_incl _ _ _ _ _ _ _ _ _ _ _ Is) y (or_introl eq_refl)) as Iy.
      pose proof (proj1 (hord_eq EQ _ _) Qk) as Hh.
      destruct (rec x y e) as [[e' [t|]]|] eqn:QR; [|exact I..].
      destruct (HR x y e e' t Ix Iy Hh QR) as (R1 & R2 & R3).
      pose proof (minv_c EQ ta tb ca cb Q q a0 b0 Sa Sb pne_a x y a b _ t Is Qk R1 R2 R3) as M. cbn [lpost fst snd vs_a vs_b vs_r].
      split; [|now split]. destruct (t_is_empty t); [now rewrite app_nil_r in M|exact M].
    - intros [m e] x y s' r Is Hx Hy. cbn [mo_a mo_b uop_pure fst snd] in *. unfold uhead_cmp. cbn [fst snd].
      pose proof (pne_a x (proj1 (minv_incl _ _ _ _ _ _ _ _ _ _ _ Is) x Hx)) as Px.
      pose proof (pne_b y (proj2 (minv_incl _ _ _ _ _ _ _ _ _ _ _ Is) y Hy)) as Py.
      unfold hd_of. destruct (t_prefix x) as [|h p]; [congruence|]. destruct (t_prefix y) as [|h' p']; [congruence|].
      destruct (u_cmp u e (h, h')) as [e' [c|]] eqn:Qc; intros [= <- <-]; cbn [fst snd]; [|exact I].
      apply (an_cmp kcmp u AN) in Qc. subst c. auto.
  Qed.
  Lemma uchildren_law e e' l : uchildren u strat rec ta tb fa fb a0 b0 e = Some (e', Ret l) -> all_slots l.
  Proof using EQ L AN Sa Sb Wa Wb HA HB HR.
    unfold uchildren.
    pose proof (gmerge_law (hord_laws L) hd_of hd_of (uhead_cmp u) OP st never any upure_lawful strat (vs_new a0 b0, e)) as G.
    specialize (G (minv_start ta tb ca cb Q q a0 b0)).
    destruct (gmerge _ _ _ _) as [s|s|s|]; cbn [lpost] in G; [|destruct G|discriminate..].
    destruct G as (G1 & G2 & G3). cbn [mo_a mo_b uop_pure] in G2, G3. rewrite G2, G3 in G1. intros [= <- <-]. now apply minv_final.
  Qed.
End Children.

(** ** one node *)
Section NodePure.
  Context {K : Type} {kcmp : K -> K -> comparison} (L : OrdLaws kcmp) (EQ : OrdEq kcmp).
  Context {E : Type} (u : ucode E K) (AN : answers_like kcmp u) (strat : nat -> nat -> bool).
  Context {V X : Type} (cl : clos E V V) (cx : clos E X X) (q qa qb : bool).
  Notation wf := (wf kcmp).
  Notation wfc := (wfc (kcmp := kcmp)).
  Notation child := (child (kcmp := kcmp)).
  Notation lk := (lk kcmp).
  Notation lkc := (lkc (kcmp := kcmp)).
  Notation A := (rtree K V). Notation B := (rtree K X).
  Context (ta tb : bool) (fb : B -> E -> given_back E A) (R : option V -> option X -> option V -> Prop).
  Record made_laws : Prop := {
    ml_none : R None None None;
    ml_ca : forall v v' w z, once cl v v' -> R v' w z -> R v w z;
    ml_cx : forall v w w' z, once cx w w' -> R v w' z -> R v w z;
    ml_a : ta = true -> forall v v', once cl v v' -> R v None v';
    ml_a0 : ta = false -> forall v, R v None None;
    ml_b : tb = false -> forall w, R None w None }.
  Context (ML : made_laws).
  Definition made (x : A) (y : B) (t : A) : Prop :=
    (forall k, R (lk x k) (lk y k) (lk t k)) /\ wf q t /\
    (forall h, hd_of x = Some h -> hd_of y = Some h -> t_is_empty t = false -> hd_of t = Some h).
  Lemma once_self_none (c : clos E V V) : once c None None.
  Proof. exact I. Qed.

  Section Merge.
    Context (rec : A -> B -> E -> given_back E A).
    Context (QA : ta = true -> qa = true \/ q = false).
    Context (HB : tb = true -> forall y e e' t, wf qb y -> t_prefix y <> [] -> (qb = true -> t_is_empty y = false) ->
               fb y e = Some (e', Ret t) ->
               (forall k, R None (lk y k) (lk t k)) /\ hd_of t = hd_of y /\ wf q t /\ (q = true -> t_is_empty t = false)).
    Context (HR : forall x y e e' t, wf qa x -> wf qb y -> rec x y e = Some (e', Ret t) -> made x y t).
    Notation M := (uchildren u strat rec ta tb (fun t => umat cl t 0) fb).
    Lemma node_made p v0 v' (ca : list A) w (cb : list B) e e' t : wfc qa ca -> wfc qb cb -> R v0 w v' ->
      ubuilt p v' (M ca cb e) = Some (e', Ret t) -> made (Node p v0 ca) (Node p w cb) t.
    Proof using EQ L AN ML QA HB HR.
      intros Wa Wb HV. unfold ubuilt. destruct (M ca cb e) as [[e1 [l|]]|] eqn:QM; cbn [then_]; [|discriminate..]. intros HH. assert (Qt : t = t_unsplit (Node p v' l)) by congruence. subst t. clear HH.
      apply (uchildren_law L EQ u AN strat rec ta tb _ fb (fun x t => forall k, R (lk x k) None (lk t k)) (fun y t => forall k, R None (lk y k) (lk t k))
               (fun x y t => forall k, R (lk x k) (lk y k) (lk t k)) q qa qb ca cb Wa Wb) in QM.
      - destruct QM as [W S]. split; [|split].
        + intros k. rewrite (unsplit_lk (kcmp := kcmp) q) by exact W. rewrite !lk_node.
          destruct (strip kcmp p k) as [[|c r]|]; [exact HV| |exact (ml_none ML)].
          rewrite (lkc_child EQ qa ca c r Wa), (lkc_child EQ qb cb c r Wb), (lkc_child EQ q l c r W). specialize (S c).
          destruct (child c ca) as [x|], (child c cb) as [y|]; cbn [slot lko] in *.
          * destruct S as (t & S & ->). specialize (S (c :: r)). destruct (t_is_empty t) eqn:Qe; cbn [lko]; [|exact S].
            now rewrite (lk_empty t (c :: r) Qe) in S.
          * destruct (Bool.bool_dec ta true) as [Ta|Ta].
            -- rewrite Ta in S. destruct S as (t & S & ->). apply S.
            -- apply Bool.not_true_is_false in Ta. rewrite Ta in S. rewrite S. now apply (ml_a0 ML).
          * destruct (Bool.bool_dec tb true) as [Tb|Tb].
            -- rewrite Tb in S. destruct S as (t & S & ->). apply S.
            -- apply Bool.not_true_is_false in Tb. rewrite Tb in S. rewrite S. now apply (ml_b ML).
          * rewrite S. exact (ml_none ML).
        + now apply unsplit_wf.
        + intros h Qh _ Ne. now apply unsplit_hd.
      - intros Ta x e0 e2 t Ix Hm. destruct (wfc_In _ _ _ Wa Ix) as (P1 & P2 & P3). apply (umat0_law (kcmp := kcmp)) in Hm.
        pose proof Hm as (R1 & R2 & R3 & R4). split; [intros k; apply (ml_a ML Ta), R4|]. split; [now apply (recopied_hd (kcmp := kcmp) cl)|].
        destruct (QA Ta) as [Q1|Q1].
        + split; [|intros _; rewrite R2; auto]. apply R3. rewrite Q1 in P2. destruct q; [exact P2|now apply (wf_weaken (kcmp := kcmp))].
        + split; [|rewrite Q1; discriminate]. apply R3. rewrite Q1. now apply (wf_any qa).
      - intros Tb y e0 e2 t Iy Hc. destruct (wfc_In _ _ _ Wb Iy) as (P1 & P2 & P3). now apply (HB Tb y e0 e2).
      - intros x y e0 e2 t Ix Iy Hh Hr. destruct (wfc_In _ _ _ Wa Ix) as (P1 & P2 & _). destruct (wfc_In _ _ _ Wb Iy) as (_ & P3 & _).
        destruct (HR x y e0 e2 t P2 P3 Hr) as (G1 & G2 & G3). split; [auto|]. split; [auto|]. intros Ne.
        destruct (ne_hd x P1) as [h Qh]. rewrite Qh. apply G3; auto. congruence.
    Qed.
    Lemma single_wfc {Y} (c : clos E Y Y) q0 p x r (w : option Y) (cb : list (rtree K Y)) y' : wf q0 (Node (p ++ x :: r) w cb) ->
      recopied (kcmp := kcmp) c (Node (x :: r) w cb) y' -> wfc q0 [y'].
    Proof using.
      intros Wb R0. assert (Wb' : wf q0 (Node (x :: r) w cb)) by (eapply wf_shorten; [exact Wb|destruct p; discriminate]).
      pose proof R0 as (R1 & R2 & R3 & R4). cbn [t_prefix] in R1.
      apply wfc_single; [rewrite R1; discriminate| |now apply R3]. intros Qb. rewrite R2. rewrite Qb in Wb'. now apply (wf_true_ne (kcmp := kcmp)).
    Qed.
    Lemma made_left p x r v v' (ca : list A) w (cb : list B) y' e e' t : wfc qa ca -> wf qb (Node (p ++ x :: r) w cb) ->
      recopied (kcmp := kcmp) cx (Node (x :: r) w cb) y' -> R v None v' ->
      ubuilt p v' (M ca [y'] e) = Some (e', Ret t) -> made (Node p v ca) (Node (p ++ x :: r) w cb) t.
    Proof using EQ L AN ML QA HB HR.
      intros Wa Wb R0 HV H. apply (node_made p v v' ca None [y']) in H; [|exact Wa|now apply (single_wfc cx qb p x r w cb)|exact HV].
      destruct H as (G1 & G2 & G3). split; [|split; [exact G2|]].
      - intros k. rewrite (lk_longer EQ). apply (ml_cx ML) with (w' := lk (Node p None [y']) k); [|apply G1].
        apply (once_through cx); [exact R0|discriminate].
      - intros h H1 _. apply G3; exact H1.
    Qed.
    Lemma made_right p x r v (ca : list A) w w' (cb : list B) x' e e' t : wf qa (Node (p ++ x :: r) v ca) -> wfc qb cb ->
      recopied (kcmp := kcmp) cl (Node (x :: r) v ca) x' -> R None w w' ->
      ubuilt p w' (M [x'] cb e) = Some (e', Ret t) -> made (Node (p ++ x :: r) v ca) (Node p w cb) t.
    Proof using EQ L AN ML QA HB HR.
      intros Wa Wb R0 HV H. apply (node_made p None w' [x'] w cb) in H; [|now apply (single_wfc cl qa p x r v ca)|exact Wb|exact HV].
      destruct H as (G1 & G2 & G3). split; [|split; [exact G2|]].
      - intros k. rewrite (lk_longer EQ). apply (ml_ca ML) with (v' := lk (Node p None [x']) k); [|apply G1].
        apply (once_through cl); [exact R0|discriminate].
      - intros h _ H2. apply G3; exact H2.
    Qed.
  End Merge.
  (** keys below different components: at most one of the two trees has an entry *)
  Lemma apart s x r y r2 v ca w cb k : x <> y ->
    lk (Node (s ++ x :: r) v ca : A) k = None \/ lk (Node (s ++ y :: r2) w cb : B) k = None.
  Proof using EQ.
    intros Hxy. rewrite !(lk_strip (s ++ _)), !(strip_app_l (kcmp := kcmp)). destruct (strip kcmp s k) as [[|c k']|]; [now left| |now left].
    cbn [strip]. destruct (kcmp x c) eqn:Q1; auto. destruct (kcmp y c) eqn:Q2; auto. apply EQ in Q1. apply EQ in Q2. congruence.
  Qed.
End NodePure.

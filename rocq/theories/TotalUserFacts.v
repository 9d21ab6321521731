(** Facts for C125 and C126. *)
From Verif Require Export VecUserBlame TotalUserModel TotalUserSpec.

(** ** VecSet operators with a moved right side *)
Section Moved.
  Context {T E : Type}.
  Definition ip_out (s : ipstate T T * E) : list T := bd_tgt (ip_a (fst s)).
  Lemma bd_extend_id : forall (b1 b2 : list T) bd, bd_extend IdConverter (length b1) bd (b1 ++ b2) = (MkB (bd_tgt bd ++ b1) (bd_src bd) (bd_drop bd), b2, true).
  Proof using.
    induction b1 as [|y b1 IH]; intros b2 bd; cbn [length bd_extend app IdConverter]; [rewrite app_nil_r; now destruct bd|].
    rewrite IH. cbn [bd_push bd_tgt bd_src bd_drop]. now rewrite <- app_assoc.
  Qed.
  Lemma bd_extend_ok : forall n (bd : builder T) b, snd (bd_extend IdConverter n bd b) = true.
  Proof using. induction n as [|n IH]; intros bd b; cbn [bd_extend]; [reflexivity|]. destruct b as [|y b]; [reflexivity|]. apply IH. Qed.
  Lemma ip_adv_b_cont (s : ipstate T T) n t : exists s', ip_adv_b IdConverter s n t = Cont s'.
  Proof using.
    unfold ip_adv_b. destruct t; [|eauto]. pose proof (bd_extend_ok n (ip_a s) (ip_b s)) as H.
    destruct (bd_extend _ _ _ _) as [[bd b] ok]. cbn [snd] in H. subst ok. eauto.
  Qed.
  Lemma ip_obeys ta tb tc : obeys (set_op (uip_msm (E := E)) ta tb tc) ip_out (fate ta eq) (fate tb eq) (fun x _ => fate tc eq x).
  Proof using.
    apply set_op_obeys; cbn [uip_msm ms_a ms_b adv_a adv_b].
    - intros take [m e] a1 a2 H. cbn [fst snd] in *. unfold ip_adv_a, bd_consume, ip_out. cbn [lift_out fst]. rewrite H.
      destruct take; cbn [ip_a ip_b bd_tgt bd_src fate].
      + rewrite firstn_app_exact, skipn_app_exact. exists a1. split; [apply fated_moved|]. now split.
      + rewrite skipn_app_exact. destruct (fated_gone a1 (bd_tgt (ip_a m))) as (r0 & G1 & G2). exists r0. now split.
    - intros take [m e] b1 b2 H. cbn [fst snd] in *. unfold ip_adv_b, ip_out. cbn [fst]. rewrite H. destruct take.
      + rewrite bd_extend_id. cbn [lift_out fst ip_a ip_b bd_tgt bd_src fate]. exists b1. split; [apply fated_moved|]. now split.
      + cbn [lift_out fst ip_a ip_b fate]. rewrite skipn_app_exact. destruct (fated_gone b1 (bd_tgt (ip_a m))) as (r0 & G1 & G2). exists r0. now split.
    - intros s n t. exact I.
    - intros [m e] n t. cbn [fst snd]. destruct (ip_adv_b_cont m n t) as [s' ->]. exact I.
  Qed.
  Lemma ip_guilt ta tb tc : guilt (set_op (uip_msm (T := T) (E := E)) ta tb tc) (fun _ => False).
  Proof using.
    constructor; cbn [set_op uip_msm mo_a mo_b mo_from_a mo_from_b mo_coll ms_a ms_b adv_a adv_b].
    - intros s n s' _. discriminate.
    - intros [m e] n s' _. cbn [fst snd]. destruct (ip_adv_b_cont m n tb) as [s1 ->]. discriminate.
    - intros [m e] s' x a y b _ _. cbn [fst snd ip_adv_a lift_out obind]. destruct (ip_adv_b_cont (MkIp (bd_consume (ip_a m) 1 tc) (ip_b m) (ip_drop_b m)) 1 false) as [s1 H].
      cbn [fst snd]. rewrite H. discriminate.
  Qed.
End Moved.

(** ** Where the elements come from *)
Lemma woven_from {A B R} (FA : A -> option R -> Prop) (FB : B -> option R -> Prop) (FC : A -> B -> option R -> Prop) a b r a' b' :
  woven (fun x _ o => FA x o) (fun y _ o => FB y o) FC a b r a' b' -> forall z, In z r ->
  (exists x, In x a /\ FA x (Some z)) \/ (exists y, In y b /\ FB y (Some z)) \/ (exists x y, In x a /\ In y b /\ FC x y (Some z)).
Proof.
  induction 1 as [a b|x a b o r a' b' F H IH|y a b o r a' b' F H IH|x y a b o r a' b' F H IH]; intros z Hz; [destruct Hz|..];
    apply in_app_or in Hz as [Hz|Hz].
  - destruct o as [z'|]; [|destruct Hz]. destruct Hz as [<-|[]]. left. exists x. split; [now left|exact F].
  - destruct (IH z Hz) as [(u & H1 & H2)|[G|(u & v & H1 & H2 & H3)]]; [left; exists u; split; [now right|exact H2]|now right; left|].
    right. right. exists u, v. split; [now right|now split].
  - destruct o as [z'|]; [|destruct Hz]. destruct Hz as [<-|[]]. right. left. exists y. split; [now left|exact F].
  - destruct (IH z Hz) as [G|[(u & H1 & H2)|(u & v & H1 & H2 & H3)]]; [now left|right; left; exists u; split; [now right|exact H2]|].
    right. right. exists u, v. split; [exact H1|]. split; [now right|exact H3].
  - destruct o as [z'|]; [|destruct Hz]. destruct Hz as [<-|[]]. right. right. exists x, y. split; [now left|]. split; [now left|exact F].
  - destruct (IH z Hz) as [(u & H1 & H2)|[(u & H1 & H2)|(u & v & H1 & H2 & H3)]]; [left; exists u; split; [now right|exact H2]|right; left; exists u; split; [now right|exact H2]|].
    right. right. exists u, v. split; [now right|]. split; [now right|exact H3].
Qed.

(** ** Set operations and membership *)
Section Picks.
  Context {T E : Type} {kcmp : T -> T -> comparison} (L : OrdLaws kcmp).
  Lemma listed_kfind l x : listed kcmp l x = match kfind kcmp element x l with Some _ => true | None => false end.
  Proof using.
    induction l as [|y l IH]; [reflexivity|]. cbn [listed existsb]. rewrite kfind_cons. unfold eqb_of, element at 1.
    destruct (kcmp x y); cbn [orb]; [reflexivity| |]; exact IH.
  Qed.
  Definition picks (ta tb tc x y : bool) : bool := if x then (if y then tc else ta) else (if y then tb else false).
  (** what the operations on the elements do, whether they return or panic *)
  Definition picked (ta tb tc : bool) (via : T -> T -> Prop) (a b : list T) (o : done (list T * E)) : Prop :=
    match o with
    | Done (r, _) => ksorted (cmp := kcmp) element r /\ (forall x, listed kcmp r x = picks ta tb tc (listed kcmp a x) (listed kcmp b x)) /\
        (forall z, In z r -> exists y, (In y a \/ In y b) /\ via y z)
    | Unwound (r, _) => ksorted (cmp := kcmp) element r /\ (forall z, In z r -> exists y, (In y a \/ In y b) /\ via y z)
    | DoneNoFuel => False
    end.
  Lemma fate_some take (via : T -> T -> Prop) x z : fate take via x (Some z) -> via x z.
  Proof using. destruct take; [|discriminate]. now intros (y & H & [= ->]). Qed.
  Lemma fate_take take (via : T -> T -> Prop) x o : fate take via x o -> match o with Some _ => true | None => false end = take.
  Proof using. destruct take; [now intros (y & _ & ->)|now intros ->]. Qed.
  Lemma picked_of ta tb tc (va vb vc via : T -> T -> Prop) (P : T -> T -> Prop) a b o :
    (forall x y, va x y -> via x y) -> (forall x y, vb x y -> via x y) -> (forall x y, vc x y -> via x y) ->
    merges (E := E) (woven (fun x _ o => fate ta va x o) (fun x _ o => fate tb vb x o) (fun x y o => P x y /\ fate tc vc x o)) a b o ->
    merges_keys (kcmp := kcmp) element element element (point (fate ta va) (fate tb vb) (fun x _ => fate tc vc x)) a b o ->
    picked ta tb tc via a b o.
  Proof using.
    intros Ha Hb Hc M MK.
    assert (G : forall r a' b', woven (fun x _ o => fate ta va x o) (fun x _ o => fate tb vb x o) (fun x y o => P x y /\ fate tc vc x o) a b r a' b' ->
      forall z, In z r -> exists y, (In y a \/ In y b) /\ via y z).
    { intros r a' b' W z Hz. destruct (woven_from _ _ _ _ _ _ _ _ W z Hz) as [(x & H1 & H2)|[(x & H1 & H2)|(x & y & H1 & H2 & _ & H3)]];
        exists x; (split; [auto|]); [apply Ha, (fate_some ta)|apply Hb, (fate_some tb)|apply Hc, (fate_some tc)]; assumption. }
    destruct o as [[r e]|[r e]|]; cbn [merges merges_keys picked] in *.
    - destruct MK as (S1 & H). split; [exact S1|]. split; [|exact (G _ _ _ M)]. intros x. rewrite !listed_kfind. specialize (H x).
      destruct (kfind kcmp element x a), (kfind kcmp element x b); cbn [point picks] in *; try (now apply fate_take in H). now rewrite H.
    - destruct M as (a' & b' & M), MK as (_ & _ & _ & _ & _ & _ & _ & _ & S1 & _). split; [exact S1|exact (G _ _ _ M)].
    - exact M.
  Qed.
End Picks.

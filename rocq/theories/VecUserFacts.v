(** The operations of VecUserModel.v deal with each element once. *)
From Verif Require Export VecUserModel VecUserSpec RadixUserEngine RadixLawEngine.

(** elements of one list dealt with one after the other *)
Inductive fated {X R : Type} (F : X -> option R -> Prop) : list X -> list R -> Prop :=
| fated_nil : fated F [] []
| fated_cons x l o r : F x o -> fated F l r -> fated F (x :: l) (olist o ++ r).
Lemma fated_dropped {X R} (l : list X) : fated (dropped (R := R)) l [].
Proof. induction l as [|x l IH]; [constructor|]. exact (fated_cons dropped x l None [] eq_refl IH). Qed.
Lemma fated_moved {X} (l : list X) : fated (passed eq) l l.
Proof. induction l as [|x l IH]; [constructor|]. apply (fated_cons (passed eq) x l (Some x) l); [now exists x|exact IH]. Qed.
Lemma fated_app {X R} (F : X -> option R -> Prop) l1 r1 l2 r2 : fated F l1 r1 -> fated F l2 r2 -> fated F (l1 ++ l2) (r1 ++ r2).
Proof. induction 1; intros G; [exact G|]. cbn [app]. rewrite <- app_assoc. constructor; auto. Qed.

(** ** A merge whose steps never stop early does not stop early *)
Section NoStop.
  Context {S A B : Type} (c : S -> A -> B -> S * option comparison) (O : mop S A B).
  Definition going (o : out S) : Prop := match o with Stop _ => False | _ => True end.
  Context (ga : forall s n, going (mo_from_a O s n)) (gb : forall s n, going (mo_from_b O s n)) (gc : forall s, going (mo_coll O s)).
  Lemma going_bind o k : going o -> (forall s, going (k s)) -> going (obind o k).
  Proof using. destruct o; cbn [obind going]; auto. Qed.
  Lemma gbinary_going : forall fuel s an bn, going (gbinary c O fuel s an bn).
  Proof using ga gb gc.
    induction fuel as [|fuel IH]; intros s an bn; cbn [gbinary]; [exact I|].
    destruct (an =? 0); [destruct (bn =? 0); [exact I|apply gb]|]. destruct (bn =? 0); [apply ga|].
    destruct (nth_error _ _); [|exact I]. destruct (wbsearch _ _ _) as [[i|i| |] s0]; try exact I.
    - apply going_bind; [apply IH|]. intros s1. apply going_bind; [apply gc|]. intros s2. apply IH.
    - apply going_bind; [apply IH|]. intros s1. apply going_bind; [apply ga|]. intros s2. apply IH.
  Qed.
  Lemma gtape_going : forall fuel s, going (gtape c O fuel s).
  Proof using ga gb gc.
    induction fuel as [|fuel IH]; intros s; cbn [gtape]; [exact I|].
    destruct (mo_a O s), (mo_b O s); [exact I|apply gb|apply ga|].
    destruct (c s a b) as [s' [[| |]|]]; try exact I; (apply going_bind; [auto|exact IH]).
  Qed.
  Lemma gmerge_going strat s : going (gmerge c O strat s).
  Proof using ga gb gc. unfold gmerge. destruct (strat _ _); [apply gtape_going|apply gbinary_going]. Qed.
End NoStop.

Section Obeys.
  Context {S A B R : Type} (O : mop S A B) (vr : S -> list R).
  Context (FA : A -> option R -> Prop) (FB : B -> option R -> Prop) (FC : A -> B -> option R -> Prop).
  Record obeys : Prop := {
    ob_a : forall s a1 a2, mo_a O s = a1 ++ a2 ->
      match mo_from_a O s (length a1) with
      | Cont s' => exists r, fated FA a1 r /\ mo_a O s' = a2 /\ mo_b O s' = mo_b O s /\ vr s' = vr s ++ r
      | Panic s' => exists a3 a4 r, a1 = a3 ++ a4 /\ fated FA a3 r /\ vr s' = vr s ++ r
      | _ => False
      end;
    ob_b : forall s b1 b2, mo_b O s = b1 ++ b2 ->
      match mo_from_b O s (length b1) with
      | Cont s' => exists r, fated FB b1 r /\ mo_b O s' = b2 /\ mo_a O s' = mo_a O s /\ vr s' = vr s ++ r
      | Panic s' => exists b3 b4 r, b1 = b3 ++ b4 /\ fated FB b3 r /\ vr s' = vr s ++ r
      | _ => False
      end;
    ob_c : forall s x a y b, mo_a O s = x :: a -> mo_b O s = y :: b ->
      match mo_coll O s with
      | Cont s' => exists o, FC x y o /\ mo_a O s' = a /\ mo_b O s' = b /\ vr s' = vr s ++ olist o
      | Panic s' => vr s' = vr s
      | _ => False
      end;
    ob_ga : forall s n, going (mo_from_a O s n);
    ob_gb : forall s n, going (mo_from_b O s n);
    ob_gc : forall s, going (mo_coll O s)
  }.
End Obeys.

(** ** [woven] *)
Section Woven.
  Context {A B R : Type} (FA : A -> list B -> option R -> Prop) (FB : B -> list A -> option R -> Prop) (FC : A -> B -> option R -> Prop).
  Notation woven := (woven FA FB FC).
  Lemma woven_trans a b r a1 b1 r1 a2 b2 : woven a b r a1 b1 -> woven a1 b1 r1 a2 b2 -> woven a b (r ++ r1) a2 b2.
  Proof.
    induction 1; intros G; [exact G|rewrite <- app_assoc..]; [apply woven_a|apply woven_b|apply woven_c]; auto.
  Qed.
  Lemma woven_fa a1 a2 b r : fated (fun x o => FA x b o) a1 r -> woven (a1 ++ a2) b r a2 b.
  Proof. induction 1; [constructor|]. cbn [app]. constructor; auto. Qed.
  Lemma woven_fb b1 a b2 r : fated (fun y o => FB y a o) b1 r -> woven a (b1 ++ b2) r a b2.
  Proof. induction 1; [constructor|]. cbn [app]. constructor; auto. Qed.
End Woven.
Lemma fated_imp {X R} (F G : X -> option R -> Prop) l r : fated F l r -> (forall x o, In x l -> F x o -> G x o) -> fated G l r.
Proof. induction 1; intros H'; constructor; [apply H'; auto; now left|]. apply IHfated. intros. apply H'; auto. now right. Qed.

(** ** Any comparison *)
Section Run.
  Context {E C S A B R : Type} (cmp : clos E (C * C) comparison) (kA : A -> C) (kB : B -> C).
  Context (O : mop (S * E) A B) (vr : S * E -> list R).
  Context (FA : A -> option R -> Prop) (FB : B -> option R -> Prop) (FC : A -> B -> option R -> Prop) (OB : obeys O vr FA FB FC).
  Context (still : forall m e e', mo_a O (m, e) = mo_a O (m, e') /\ mo_b O (m, e) = mo_b O (m, e') /\ vr (m, e) = vr (m, e')).
  Notation W := (woven (fun x _ o => FA x o) (fun y _ o => FB y o) (fun x y o => said_equal cmp (kA x) (kB y) /\ FC x y o)).
  Definition wrun (s s' : S * E) : Prop := exists r, W (mo_a O s) (mo_b O s) r (mo_a O s') (mo_b O s') /\ vr s' = vr s ++ r.
  Definition wend (s s' : S * E) : Prop := exists r a' b', W (mo_a O s) (mo_b O s) r a' b' /\ vr s' = vr s ++ r.
  Lemma wrun_steps : gsteps (wcmp cmp kA kB) O wrun wend (fun _ => False).
  Proof using OB still.
    constructor.
    - intros s. exists []. rewrite app_nil_r. split; [constructor|reflexivity].
    - intros s1 s2 s3 (r & H1 & H2) (r' & G1 & G2). exists (r ++ r'). split; [eapply woven_trans; eassumption|]. now rewrite app_assoc, <- H2.
    - intros s1 s2 s3 (r & H1 & H2) (r' & a' & b' & G1 & G2). exists (r ++ r'), a', b'.
      split; [eapply woven_trans; eassumption|]. now rewrite app_assoc, <- H2.
    - auto.
    - intros s n Hn. pose proof (ob_a _ _ _ _ _ OB s (firstn n (mo_a O s)) (skipn n (mo_a O s)) (eq_sym (firstn_skipn _ _))) as H.
      rewrite firstn_length_le in H by assumption. destruct (mo_from_a O s n) as [s'|s'|s'|]; cbn [gstepok]; try contradiction.
      + destruct H as (r & H1 & H2 & H3 & H4). split; [|now rewrite skipn_O].
        exists r. rewrite H2, H3. split; [|exact H4]. rewrite <- (firstn_skipn n (mo_a O s)) at 1. now apply woven_fa.
      + destruct H as (a3 & a4 & r & H1 & H2 & H3). exists r, (a4 ++ skipn n (mo_a O s)), (mo_b O s). split; [|exact H3].
        rewrite <- (firstn_skipn n (mo_a O s)) at 1. rewrite H1, <- app_assoc. now apply woven_fa.
    - intros s n Hn. pose proof (ob_b _ _ _ _ _ OB s (firstn n (mo_b O s)) (skipn n (mo_b O s)) (eq_sym (firstn_skipn _ _))) as H.
      rewrite firstn_length_le in H by assumption. destruct (mo_from_b O s n) as [s'|s'|s'|]; cbn [gstepok]; try contradiction.
      + destruct H as (r & H1 & H2 & H3 & H4). split; [|now rewrite skipn_O].
        exists r. rewrite H2, H3. split; [|exact H4]. rewrite <- (firstn_skipn n (mo_b O s)) at 1. now apply woven_fb.
      + destruct H as (a3 & a4 & r & H1 & H2 & H3). exists r, (mo_a O s), (a4 ++ skipn n (mo_b O s)). split; [|exact H3].
        rewrite <- (firstn_skipn n (mo_b O s)) at 1. rewrite H1, <- app_assoc. now apply woven_fb.
    - intros s x a y b Ha Hb (s1 & s2 & Hc). pose proof (ob_c _ _ _ _ _ OB s x a y b Ha Hb) as H.
      assert (SE : said_equal cmp (kA x) (kB y)).
      { unfold wcmp in Hc. destruct (cmp (snd s1) (kA x, kB y)) as [e' [q|]] eqn:Q; [|discriminate]. exists (snd s1), e'. now injection Hc as _ ->. }
      destruct (mo_coll O s) as [s'|s'|s'|]; cbn [gstepok]; try contradiction.
      + destruct H as (o & H1 & H2 & H3 & H4). rewrite Ha, Hb, H2, H3. split; [|split; reflexivity].
        exists (olist o). split; [|exact H4]. rewrite Ha, Hb, H2, H3. rewrite <- (app_nil_r (olist o)). apply woven_c; [now split|constructor].
      + exists [], (mo_a O s), (mo_b O s). rewrite app_nil_r. split; [constructor|exact H].
    - intros [m e] x y s' q _ _. unfold wcmp. cbn [fst snd]. destruct (cmp e (kA x, kB y)) as [e' r]. intros [= <- <-].
      destruct (still m e e') as (H1 & H2 & H3). rewrite H1, H2. split; [reflexivity|]. split; [reflexivity|].
      assert (Z : forall a b, exists r0, W a b r0 a b /\ vr (m, e') = vr (m, e) ++ r0)
        by (intros a b; exists []; rewrite app_nil_r; split; [constructor|now rewrite H3]).
      destruct r; [|destruct (Z (mo_a O (m, e)) (mo_b O (m, e))) as (r0 & Z1 & Z2); now exists r0, (mo_a O (m, e)), (mo_b O (m, e))].
      destruct (Z (mo_a O (m, e)) (mo_b O (m, e))) as (r0 & Z1 & Z2). exists r0. rewrite <- H1, <- H2. now split.
  Qed.
  Lemma wrun_merges strat m e : vr (m, e) = [] ->
    merges (E := E) W (mo_a O (m, e)) (mo_b O (m, e)) (to_done (fun s => (vr s, snd s)) (gmerge (wcmp cmp kA kB) O strat (m, e))).
  Proof using OB still.
    intros Hr. pose proof (gmerge_ok _ _ _ _ _ wrun_steps strat (m, e)) as H.
    pose proof (gmerge_going (wcmp cmp kA kB) O (ob_ga _ _ _ _ _ OB) (ob_gb _ _ _ _ _ OB) (ob_gc _ _ _ _ _ OB) strat (m, e)) as G.
    destruct (gmerge _ _ _ _) as [s'|s'|s'|]; cbn [gstepok to_done merges] in *.
    - destruct H as ((r & H1 & H2) & H3 & H4). rewrite Hr in H2. cbn [app] in H2. rewrite H2.
      rewrite H3, H4, !skipn_all in H1. exact H1.
    - destruct G.
    - destruct H as (r & a' & b' & H1 & H2). rewrite Hr in H2. cbn [app] in H2. rewrite H2. now exists a', b'.
    - exact H.
  Qed.
End Run.

(** Facts about CloneModel.v: every merge performs a list of jobs, in key order, until one panics. *)
From Verif Require Import VecSetFacts VecMapFacts CloneModel CloneSpec.

Section Jobs.
  Context {X R E : Type} (perform : clos E X (option R)).
  Local Notation runj := (runj perform).
  Lemma runj_app j1 j2 e : runj (j1 ++ j2) e =
    let '(r1, e1, ok1) := runj j1 e in
    if ok1 then let '(r2, e2, ok2) := runj j2 e1 in (r1 ++ r2, e2, ok2) else (r1, e1, false).
  Proof.
    revert e. induction j1 as [|x j1 IH]; intros e; cbn [app runj].
    - destruct (runj j2 e) as [[? ?] ?]. reflexivity.
    - destruct (perform e x) as [e1 [q|]]; [|reflexivity]. rewrite IH.
      destruct (runj j1 e1) as [[r1 e2] [|]]; [|reflexivity].
      destruct (runj j2 e2) as [[r2 e3] ok]. now destruct q.
  Qed.

  Context {K : Type} {kcmp : K -> K -> comparison} (L : OrdLaws kcmp).
  Context {A B : Type} (kA : A -> K) (kB : B -> K).
  Context (ha : A -> option X) (hb : B -> option X) (hc : A -> B -> option X).
  Context {St : Type} (O : mop St A B) (tgt : St -> list R) (env : St -> E).

  (** what a handler may do: the jobs [js], and consuming the slices down to [a'], [b'] *)
  Definition does (s : St) (js : list X) (a' : list A) (b' : list B) (o : out St) : Prop :=
    let '(rs, e, ok) := runj js (env s) in
    if ok then exists s', o = Cont s' /\ mo_a O s' = a' /\ mo_b O s' = b' /\ tgt s' = tgt s ++ rs /\ env s' = e
    else exists s', o = Panic s' /\ tgt s' = tgt s ++ rs /\ env s' = e.
  Record jobwise : Prop := {
    jw_a : forall s n, n <= length (mo_a O s) ->
      does s (omap ha (firstn n (mo_a O s))) (skipn n (mo_a O s)) (mo_b O s) (mo_from_a O s n);
    jw_b : forall s n, n <= length (mo_b O s) ->
      does s (omap hb (firstn n (mo_b O s))) (mo_a O s) (skipn n (mo_b O s)) (mo_from_b O s n);
    jw_c : forall s x a y b, mo_a O s = x :: a -> mo_b O s = y :: b ->
      does s (o2l (hc x y)) a b (mo_coll O s);
    jw_cmp : forall x y, mo_cmp O x y = Some (kcmp (kA x) (kB y))
  }.
  Context (J : jobwise).

  Lemma jw_advancing : advancing O.
  Proof using J.
    constructor.
    - intros s n s' H Q. pose proof (jw_a J s n H) as D. unfold does in D. rewrite Q in D.
      destruct (runj _ _) as [[rs e] [|]]; destruct D as (s1 & Q1 & D); [|discriminate].
      injection Q1 as <-. split; apply D.
    - intros s n s' H Q. pose proof (jw_b J s n H) as D. unfold does in D. rewrite Q in D.
      destruct (runj _ _) as [[rs e] [|]]; destruct D as (s1 & Q1 & D); [|discriminate].
      injection Q1 as <-. split; apply D.
    - intros s x a y b s' Ha Hb Q. pose proof (jw_c J s x a y b Ha Hb) as D. unfold does in D. rewrite Q in D.
      destruct (runj _ _) as [[rs e] [|]]; destruct D as (s1 & Q1 & D); [|discriminate].
      injection Q1 as <-. split; apply D.
  Qed.

  Definition ended (s : St) (p : list R * E * bool) (o : out St) : Prop :=
    let '(rs, e, ok) := p in
    exists s', o = (if ok then Cont s' else Panic s') /\ tgt s' = tgt s ++ rs /\ env s' = e.

  Lemma ended_step s js a' b' o k (js' : list X) :
    does s js a' b' o ->
    (forall s', mo_a O s' = a' -> mo_b O s' = b' -> ended s' (runj js' (env s')) (k s')) ->
    ended s (runj (js ++ js') (env s)) (obind o k).
  Proof using.
    intros D H. rewrite runj_app. unfold does in D. destruct (runj js (env s)) as [[rs e] [|]].
    - destruct D as (s1 & -> & Ea & Eb & Et & <-). specialize (H s1 Ea Eb). cbn [obind].
      destruct (runj js' (env s1)) as [[r2 e2] ok2]. destruct H as (s2 & Q & T & V). exists s2.
      rewrite Q, T, Et, app_assoc. auto.
    - destruct D as (s1 & -> & Et & Ee). cbn [obind]. exists s1. auto.
  Qed.

  Lemma run_jobs a b evs : ok_sched (kcmp := kcmp) kA kB a b evs ->
    forall s, mo_a O s = a -> mo_b O s = b ->
    ended s (runj (tape_ref (kcmp := kcmp) kA kB ha hb hc a b) (env s)) (run O evs s).
  Proof using J.
    induction 1 as [|a1 a2 b evs Hne Hlt H IH|a b1 b2 evs Hne Hgt H IH|x a y b evs Exy H IH];
      intros s Ha Hb; cbn [run step].
    - exists s. cbn. now rewrite app_nil_r.
    - rewrite tape_ref_app_a by assumption.
      apply ended_step with (a' := a2) (b' := b); [|intros s' E1 E2; now apply IH].
      pose proof (jw_a J s (length a1)) as D. rewrite Ha, Hb, firstn_app_exact, skipn_app_exact in D.
      apply D. rewrite app_length. lia.
    - rewrite tape_ref_app_b by assumption.
      apply ended_step with (a' := a) (b' := b2); [|intros s' E1 E2; now apply IH].
      pose proof (jw_b J s (length b1)) as D. rewrite Ha, Hb, firstn_app_exact, skipn_app_exact in D.
      apply D. rewrite app_length. lia.
    - rewrite tape_ref_cons, Exy.
      apply ended_step with (a' := a) (b' := b); [|intros s' E1 E2; now apply IH].
      now apply (jw_c J).
  Qed.

  Lemma merge_jobs strat s :
    ksorted (cmp := kcmp) kA (mo_a O s) -> ksorted (cmp := kcmp) kB (mo_b O s) ->
    ended s (runj (tape_ref (kcmp := kcmp) kA kB ha hb hc (mo_a O s) (mo_b O s)) (env s)) (merge O strat s).
  Proof using J L.
    intros Sa Sb.
    destruct (merge_sched L kA kB O jw_advancing strat s Sa Sb) as (evs & Ok & Q).
    - intros x y _ _. apply (jw_cmp J).
    - rewrite Q. now apply run_jobs.
  Qed.

  Lemma merge_finished strat s : tgt s = [] ->
    ksorted (cmp := kcmp) kA (mo_a O s) -> ksorted (cmp := kcmp) kB (mo_b O s) ->
    to_done (fun s => (tgt s, env s)) (merge O strat s) =
    finished (runj (tape_ref (kcmp := kcmp) kA kB ha hb hc (mo_a O s) (mo_b O s)) (env s)).
  Proof using J L.
    intros T Sa Sb. pose proof (merge_jobs strat s Sa Sb) as H.
    destruct (runj _ _) as [[rs e] ok]. destruct H as (s' & -> & Et & Ee). rewrite T in Et. cbn [app] in Et.
    destruct ok; cbn [to_done finished]; now rewrite Et, Ee.
  Qed.
End Jobs.

(** ** Sets *)
Section SetJobs.
  Context {T E : Type} (clone : clos E T T).
  Local Notation put := (put clone).
  Definition some_if {Y} (t : bool) (h : T -> Y) (x : T) : option Y := if t then Some (h x) else None.

  Lemma cpush_all_eq : forall l r e, cpush_all clone l r e =
    let '(rs, e', ok) := runj put (map (fun x => (false, x)) l) e in (r ++ rs, e', ok).
  Proof.
    induction l as [|x l IH]; intros r e; cbn [cpush_all map runj].
    - now rewrite app_nil_r.
    - unfold put at 1. cbn [fst snd]. destruct (clone e x) as [e1 [y|]]; [|now rewrite app_nil_r].
      rewrite IH. destruct (runj put _ e1) as [[rs e2] ok]. cbn [o2l]. now rewrite <- app_assoc.
  Qed.
  Lemma cbd_extend_eq : forall n bd b e, n <= length b -> cbd_extend clone n bd b e =
    let '(rs, e', ok) := runj put (map (fun x => (false, x)) (firstn n b)) e in
    (MkB (bd_tgt bd ++ rs) (bd_src bd) (bd_drop bd), skipn (if ok then n else S (length rs)) b, e', ok).
  Proof.
    induction n as [|n IH]; intros bd b e H; cbn [cbd_extend firstn map runj].
    - rewrite app_nil_r, skipn_O. now destruct bd.
    - destruct b as [|y b]; cbn [length] in H; [lia|]. cbn [firstn map runj].
      unfold put at 1. cbn [fst snd]. destruct (clone e y) as [e1 [x|]].
      + rewrite IH by lia. destruct (runj put _ e1) as [[rs e2] ok]. cbn [bd_push bd_tgt bd_src bd_drop o2l].
        rewrite <- app_assoc. destruct ok; reflexivity.
      + cbn. rewrite app_nil_r. now destruct bd.
  Qed.
  Lemma omap_some_if {Y} (t : bool) (h : T -> Y) l : omap (some_if t h) l = if t then map h l else [].
  Proof.
    induction l as [|x l IH]; [now destruct t|]. unfold omap in *. cbn [flat_map]. rewrite IH.
    unfold some_if. destruct t; reflexivity.
  Qed.
  Lemma runj_moved : forall (l : list T) (e : E), runj put (map (fun x => (true, x)) l) e = (l, e, true).
  Proof. induction l as [|x l IH]; intros e; cbn; [reflexivity|]. now rewrite IH. Qed.

  Context {cmp : T -> T -> comparison} (L : OrdLaws cmp).
  Local Notation id := (fun x : T => x).

  Lemma cvs_a_does ta tb tc (s : vstate T T T * E) n : n <= length (vs_a (fst s)) ->
    forall t : bool, does put (setop (cmp := cmp) ta tb tc (cvs_msm clone)) (fun s => vs_r (fst s)) snd s
      (if t then map (fun x => (false, x)) (firstn n (vs_a (fst s))) else [])
      (skipn n (vs_a (fst s))) (vs_b (fst s)) (cvs_adv_a clone s n t).
  Proof.
    intros H t. destruct s as [m e]. cbn [fst] in *. unfold cvs_adv_a, si_take_front, si_drop_front, does.
    apply Nat.leb_le in H. rewrite H. destruct t; cbn [snd fst].
    - rewrite cpush_all_eq. destruct (runj put _ e) as [[rs e'] [|]]; eexists; split; [reflexivity|cbn; auto|reflexivity|cbn; auto].
    - cbn [runj]. eexists. split; [reflexivity|]. cbn. rewrite app_nil_r. auto.
  Qed.
  Lemma cvs_b_does ta tb tc (s : vstate T T T * E) n : n <= length (vs_b (fst s)) ->
    forall t : bool, does put (setop (cmp := cmp) ta tb tc (cvs_msm clone)) (fun s => vs_r (fst s)) snd s
      (if t then map (fun x => (false, x)) (firstn n (vs_b (fst s))) else [])
      (vs_a (fst s)) (skipn n (vs_b (fst s))) (cvs_adv_b clone s n t).
  Proof.
    intros H t. destruct s as [m e]. cbn [fst] in *. unfold cvs_adv_b, si_take_front, si_drop_front, does.
    apply Nat.leb_le in H. rewrite H. destruct t; cbn [snd fst].
    - rewrite cpush_all_eq. destruct (runj put _ e) as [[rs e'] [|]]; eexists; split; [reflexivity|cbn; auto|reflexivity|cbn; auto].
    - cbn [runj]. eexists. split; [reflexivity|]. cbn. rewrite app_nil_r. auto.
  Qed.

  Local Notation clones := (fun x : T => (false, x)).
  Local Notation moves := (fun x : T => (true, x)).
  Lemma cvs_jobwise ta tb tc :
    jobwise put (kcmp := cmp) id id (some_if ta clones) (some_if tb clones) (fun x _ => some_if tc clones x)
      (setop (cmp := cmp) ta tb tc (cvs_msm clone)) (fun s => vs_r (fst s)) snd.
  Proof.
    constructor.
    - intros s n H. rewrite omap_some_if. exact (cvs_a_does ta tb tc s n H ta).
    - intros s n H. rewrite omap_some_if. exact (cvs_b_does ta tb tc s n H tb).
    - intros s x a y b Ha Hb. cbn [setop mo_coll mo_a mo_b adv_a adv_b ms_a ms_b cvs_msm] in *.
      pose proof (cvs_a_does ta tb tc s 1 ltac:(rewrite Ha; cbn; lia) tc) as D.
      rewrite Ha in D. cbn [firstn skipn map] in D. unfold some_if.
      replace (if tc then [clones x] else []) with (o2l (if tc then Some (clones x) else None)) in D by now destruct tc.
      unfold does in *. destruct (runj put _ (snd s)) as [[rs e] [|]].
      + destruct D as (s1 & -> & E1 & E2 & E3 & E4). cbn [obind].
        cbn [setop mo_a mo_b ms_a ms_b cvs_msm] in E1, E2. rewrite Hb in E2.
        pose proof (cvs_b_does ta tb tc s1 1 ltac:(rewrite E2; cbn; lia) false) as D. unfold does in D. cbn [runj] in D.
        destruct D as (s2 & -> & F1 & F2 & F3 & F4). exists s2. cbn [setop mo_a mo_b ms_a ms_b cvs_msm] in *.
        rewrite app_nil_r in F3. split; [reflexivity|]. split; [congruence|]. split; [rewrite F2, E2; reflexivity|].
        split; congruence.
      + destruct D as (s1 & -> & E3 & E4). cbn [obind]. exists s1. auto.
    - reflexivity.
  Qed.

  Lemma cipr_a_does ta tb tc (s : iprstate T T * E) n (t : bool) :
    does put (setop (cmp := cmp) ta tb tc (cipr_msm clone)) (fun s => bd_tgt (ipr_a (fst s))) snd s
      (if t then map moves (firstn n (bd_src (ipr_a (fst s)))) else [])
      (skipn n (bd_src (ipr_a (fst s)))) (ipr_b (fst s)) (cipr_adv_a s n t).
  Proof.
    destruct s as [m e]. unfold does. cbn [fst snd]. destruct t.
    - rewrite runj_moved. eexists. split; [reflexivity|]. cbn. auto.
    - cbn [runj]. eexists. split; [reflexivity|]. cbn. rewrite app_nil_r. auto.
  Qed.
  Lemma cipr_b_does ta tb tc (s : iprstate T T * E) n (t : bool) : n <= length (ipr_b (fst s)) ->
    does put (setop (cmp := cmp) ta tb tc (cipr_msm clone)) (fun s => bd_tgt (ipr_a (fst s))) snd s
      (if t then map clones (firstn n (ipr_b (fst s))) else [])
      (bd_src (ipr_a (fst s))) (skipn n (ipr_b (fst s))) (cipr_adv_b clone s n t).
  Proof.
    destruct s as [m e]. unfold does, cipr_adv_b. cbn [fst snd]. intros H. destruct t.
    - rewrite cbd_extend_eq by assumption.
      destruct (runj put _ e) as [[rs e'] [|]]; eexists; split; [reflexivity|cbn; auto|reflexivity|cbn; auto].
    - cbn [runj]. eexists. split; [reflexivity|]. cbn. rewrite app_nil_r. auto.
  Qed.
  Lemma cipr_jobwise ta tb tc :
    jobwise put (kcmp := cmp) id id (some_if ta moves) (some_if tb clones) (fun x _ => some_if tc moves x)
      (setop (cmp := cmp) ta tb tc (cipr_msm clone)) (fun s => bd_tgt (ipr_a (fst s))) snd.
  Proof.
    constructor.
    - intros s n H. rewrite omap_some_if. exact (cipr_a_does ta tb tc s n ta).
    - intros s n H. rewrite omap_some_if. exact (cipr_b_does ta tb tc s n tb H).
    - intros s x a y b Ha Hb. cbn [setop mo_coll mo_a mo_b adv_a adv_b ms_a ms_b cipr_msm] in *.
      pose proof (cipr_a_does ta tb tc s 1 tc) as D.
      rewrite Ha in D. cbn [firstn skipn map] in D. unfold some_if.
      replace (if tc then [moves x] else []) with (o2l (if tc then Some (moves x) else None)) in D by now destruct tc.
      unfold does in *. destruct (runj put _ (snd s)) as [[rs e] [|]].
      + destruct D as (s1 & -> & E1 & E2 & E3 & E4). cbn [obind].
        cbn [setop mo_a mo_b ms_a ms_b cipr_msm] in E1, E2. rewrite Hb in E2.
        pose proof (cipr_b_does ta tb tc s1 1 false ltac:(rewrite E2; cbn; lia)) as D. unfold does in D. cbn [runj] in D.
        destruct D as (s2 & -> & F1 & F2 & F3 & F4). exists s2. cbn [setop mo_a mo_b ms_a ms_b cipr_msm] in *.
        rewrite app_nil_r in F3. split; [reflexivity|]. split; [congruence|]. split; [rewrite F2, E2; reflexivity|].
        split; congruence.
      + destruct D as (s1 & -> & E3 & E4). cbn [obind]. exists s1. auto.
    - reflexivity.
  Qed.

  Local Notation has := (has cmp).
  Lemma tags_map (fa fb : T -> bool * T) ta tb tc a b :
    (forall x, snd (fa x) = x) -> (forall x, snd (fb x) = x) ->
    map snd (tape_ref (kcmp := cmp) id id (some_if ta fa) (some_if tb fb) (fun x _ => some_if tc fa x) a b) =
    set_ref (cmp := cmp) ta tb tc a b.
  Proof.
    intros Fa Fb. unfold set_ref. revert b. induction a as [|x a IHa]; intros b.
    - cbn [tape_ref]. rewrite omap_some_if, omap_sel. destruct tb; [|reflexivity].
      rewrite map_map. rewrite <- (map_id b) at 2. apply map_ext. auto.
    - induction b as [|y b IHb].
      + rewrite !tape_ref_nil_r, omap_some_if, omap_sel. destruct ta; [|reflexivity].
        rewrite map_map. rewrite <- (map_id (x :: a)) at 2. apply map_ext. auto.
      + rewrite !tape_ref_cons. destruct (cmp x y); rewrite map_app.
        * rewrite IHa. unfold some_if, sel. destruct tc; cbn; [now rewrite Fa|reflexivity].
        * rewrite IHa. unfold some_if, sel. destruct ta; cbn; [now rewrite Fa|reflexivity].
        * rewrite IHb. unfold some_if, sel. destruct tb; cbn; [now rewrite Fb|reflexivity].
  Qed.

  Lemma tags_clone ta tb tc a b :
    tape_ref (kcmp := cmp) id id (some_if ta clones) (some_if tb clones) (fun x _ => some_if tc clones x) a b =
    map clones (set_ref (cmp := cmp) ta tb tc a b).
  Proof.
    rewrite <- (tags_map clones clones ta tb tc a b) by auto. rewrite map_map.
    symmetry. rewrite <- map_id. apply map_ext_in. intros [t x] H. cbn [snd].
    f_equal. symmetry. revert b H. induction a as [|z a IHa]; intros b H.
    - cbn [tape_ref] in H. rewrite omap_some_if in H. destruct tb; [|destruct H].
      apply in_map_iff in H as (? & [= <- _] & _). reflexivity.
    - induction b as [|y b IHb].
      + rewrite tape_ref_nil_r, omap_some_if in H. destruct ta; [|destruct H].
        apply in_map_iff in H as (? & [= <- _] & _). reflexivity.
      + rewrite tape_ref_cons in H. destruct (cmp z y); apply in_app_or in H as [H|H];
          try (eapply IHa; exact H); try (eapply IHb; exact H);
          unfold some_if in H; [destruct tc|destruct ta|destruct tb]; cbn in H;
          try destruct H as [[= <- _]|[]]; try reflexivity; try destruct H.
  Qed.

  Lemma has_mem a x : has a x = true <-> mem cmp x a.
  Proof.
    unfold has. rewrite existsb_exists. unfold mem. split; intros (y & H1 & H2); exists y; split; auto.
    - destruct (cmp x y) eqn:Q; try discriminate. reflexivity.
    - now rewrite H2.
  Qed.

  Lemma tags_move ta tb tc a b : sorted cmp a -> sorted cmp b ->
    tape_ref (kcmp := cmp) id id (some_if ta moves) (some_if tb clones) (fun x _ => some_if tc moves x) a b =
    map (fun x => (has a x, x)) (set_ref (cmp := cmp) ta tb tc a b).
  Proof.
    intros Sa Sb. rewrite <- (tags_map moves clones ta tb tc a b) by auto. rewrite map_map.
    symmetry. rewrite <- map_id. apply map_ext_in. intros [t x] H. cbn [snd]. f_equal.
    apply (tape_ref_In L) in H; [|now apply ksorted_id|now apply ksorted_id].
    destruct H as [(z & H1 & _ & H2)|[(z & H1 & H2 & H3)|(z & y & H1 & H2 & _ & H3)]].
    - unfold some_if in H2. destruct ta; [|discriminate]. injection H2 as <- <-.
      apply has_mem. exists z. split; [exact H1|apply (cmp_refl L)].
    - unfold some_if in H3. destruct tb; [|discriminate]. injection H3 as <- <-.
      destruct (has a z) eqn:Q; [|reflexivity]. apply has_mem in Q as (w & Q1 & Q2).
      exfalso. apply (H2 w Q1). now apply (cmp_sym L).
    - unfold some_if in H3. destruct tc; [|discriminate]. injection H3 as <- <-.
      apply has_mem. exists z. split; [exact H1|apply (cmp_refl L)].
  Qed.

  Lemma cvs_merge_spec strat ta tb tc a b e : sorted cmp a -> sorted cmp b ->
    cvs_merge strat (setop (cmp := cmp) ta tb tc (cvs_msm clone)) a b e =
    finished (runj put (map clones (set_ref (cmp := cmp) ta tb tc a b)) e).
  Proof.
    intros Sa Sb. unfold cvs_merge. rewrite <- tags_clone.
    apply (merge_finished put L id id _ _ _ _ (fun s : vstate T T T * E => vs_r (fst s)) snd (cvs_jobwise ta tb tc) strat
      (vs_new a b, e)); [reflexivity|now apply ksorted_id|now apply ksorted_id].
  Qed.
  Lemma cipr_merge_spec strat ta tb tc a b e : sorted cmp a -> sorted cmp b ->
    cipr_merge strat (setop (cmp := cmp) ta tb tc (cipr_msm clone)) a b e =
    finished (runj put (map (fun x => (has a x, x)) (set_ref (cmp := cmp) ta tb tc a b)) e).
  Proof.
    intros Sa Sb. unfold cipr_merge. rewrite <- tags_move by assumption.
    apply (merge_finished put L id id _ _ _ _ (fun s : iprstate T T * E => bd_tgt (ipr_a (fst s))) snd (cipr_jobwise ta tb tc) strat
      (ipr_new a b, e)); [reflexivity|now apply ksorted_id|now apply ksorted_id].
  Qed.
End SetJobs.

(** ** Maps *)
Section MapJobs.
  Context {K E : Type} (clone : clos E K K) {kcmp : K -> K -> comparison} (L : OrdLaws kcmp).

  Section Steps.
    Context {A B X R St : Type} (perform : clos E X (option R)) (O : mop St A B) (tgt : St -> list R) (env : St -> E).
    Local Notation does := (does perform O tgt env).
    (** a loop whose body handles one element of the left (right) slice *)
    Lemma for_n_does_a (h : A -> option X) body :
      (forall s x a, mo_a O s = x :: a -> does s (o2l (h x)) a (mo_b O s) (body s)) ->
      forall n s, n <= length (mo_a O s) ->
      does s (omap h (firstn n (mo_a O s))) (skipn n (mo_a O s)) (mo_b O s) (for_n n body s).
    Proof using.
      intros H. induction n as [|n IH]; intros s Hn; cbn [for_n firstn skipn omap flat_map].
      - unfold CloneFacts.does. cbn [runj]. exists s. rewrite app_nil_r. auto.
      - destruct (mo_a O s) as [|x a] eqn:Q; cbn [length] in Hn; [lia|]. cbn [firstn skipn flat_map].
        specialize (H s x a Q). unfold CloneFacts.does in *. rewrite runj_app.
        destruct (runj perform (o2l (h x)) (env s)) as [[rs e] [|]].
        + destruct H as (s1 & -> & E1 & E2 & E3 & <-). cbn [obind]. specialize (IH s1). rewrite E1 in IH.
          specialize (IH ltac:(lia)). unfold CloneFacts.does, omap in IH.
          destruct (runj perform _ (env s1)) as [[rs2 e2] [|]].
          * destruct IH as (s2 & -> & F1 & F2 & F3 & F4). exists s2. rewrite F3, E3, <- app_assoc, F2, E2. auto.
          * destruct IH as (s2 & -> & F3 & F4). exists s2. rewrite F3, E3, <- app_assoc. auto.
        + destruct H as (s1 & -> & E3 & E4). cbn [obind]. exists s1. auto.
    Qed.
    Lemma for_n_does_b (h : B -> option X) body :
      (forall s y b, mo_b O s = y :: b -> does s (o2l (h y)) (mo_a O s) b (body s)) ->
      forall n s, n <= length (mo_b O s) ->
      does s (omap h (firstn n (mo_b O s))) (mo_a O s) (skipn n (mo_b O s)) (for_n n body s).
    Proof using.
      intros H. induction n as [|n IH]; intros s Hn; cbn [for_n firstn skipn omap flat_map].
      - unfold CloneFacts.does. cbn [runj]. exists s. rewrite app_nil_r. auto.
      - destruct (mo_b O s) as [|x a] eqn:Q; cbn [length] in Hn; [lia|]. cbn [firstn skipn flat_map].
        specialize (H s x a Q). unfold CloneFacts.does in *. rewrite runj_app.
        destruct (runj perform (o2l (h x)) (env s)) as [[rs e] [|]].
        + destruct H as (s1 & -> & E1 & E2 & E3 & <-). cbn [obind]. specialize (IH s1). rewrite E2 in IH.
          specialize (IH ltac:(lia)). unfold CloneFacts.does, omap in IH.
          destruct (runj perform _ (env s1)) as [[rs2 e2] [|]].
          * destruct IH as (s2 & -> & F1 & F2 & F3 & F4). exists s2. rewrite F3, E3, <- app_assoc, F1, E1. auto.
          * destruct IH as (s2 & -> & F3 & F4). exists s2. rewrite F3, E3, <- app_assoc. auto.
        + destruct H as (s1 & -> & E3 & E4). cbn [obind]. exists s1. auto.
    Qed.
    Lemma omap_none {Y Z} (l : list Y) : omap (fun _ : Y => @None Z) l = [].
    Proof using. induction l; auto. Qed.
  End Steps.

  Context {V W X : Type} (key : X -> K).
  Local Notation cl := (pair false).
  Local Notation mv := (pair true).
  (** the jobs: argument for a key, and whether the key is moved *)
  Definition jA {Y} (arg : option (K -> Y -> X)) (t : bool) (p : K * Y) : option (bool * X) :=
    option_map (fun g => (t, g (fst p) (snd p))) arg.
  Definition jC (arg : K -> V -> W -> X) (t : bool) (p : K * V) (q : K * W) : option (bool * X) :=
    Some (t, arg (fst p) (snd p) (snd q)).

  Section Pure.
    Context {R : Type} (f : clos E X (option R)).
    Local Notation vst := (vstate (K * V) (K * W) (K * R)).
    Local Notation tr := (fun s : vst * E => vs_r (fst s)).
    Local Notation P := (put_entry clone f key).
    Context (argA : option (K -> V -> X)) (argB : option (K -> W -> X)) (argC : K -> V -> W -> X).
    Context (KA : forall h k v, argA = Some h -> key (h k v) = k) (KB : forall h k v, argB = Some h -> key (h k v) = k)
      (KC : forall k v w, key (argC k v w) = k).
    Definition from_arg {S Y} (body : (K -> Y -> X) -> S -> out S) (dr : S -> nat -> out S)
      (arg : option (K -> Y -> X)) : S -> nat -> out S :=
      match arg with Some g => fun s n => for_n n (body g) s | None => dr end.
    Local Notation O := (MkMop (fun s : vst * E => vs_a (fst s)) (fun s : vst * E => vs_b (fst s)) (kvcmp kcmp)
      (from_arg (cjv_a clone f) jv_drop_a argA) (from_arg (cjv_b clone f) jv_drop_b argB) (cjv_coll clone f argC)).

    Lemma ccall_does (s : vst * E) x (m' : vst) a' b' :
      vs_r m' = vs_r (fst s) -> vs_a m' = a' -> vs_b m' = b' ->
      does P O tr snd s [(false, x)] a' b' (ccall clone f (snd s) x (key x) (cvs_emit m') m' m').
    Proof using.
      intros Er <- <-. unfold does, ccall. cbn [runj]. unfold put_entry. cbn [fst snd]. rewrite <- Er.
      destruct (f (snd s) x) as [e1 [[r|]|]].
      - destruct (clone e1 (key x)) as [e2 [k'|]].
        + eexists. split; [reflexivity|]. cbn. auto.
        + eexists. split; [reflexivity|]. cbn. now rewrite app_nil_r.
      - eexists. split; [reflexivity|]. cbn. rewrite app_nil_r. auto.
      - eexists. split; [reflexivity|]. cbn. now rewrite app_nil_r.
    Qed.

    Lemma cjv_jobwise : jobwise P (kcmp := kcmp) fst fst (jA argA false) (jA argB false) (jC argC false) O tr snd.
    Proof using KA KB KC.
      constructor.
      - intros s n H. cbn [mo_from_a]. unfold from_arg. destruct argA as [g|] eqn:QA.
        + apply for_n_does_a; [|exact H]. intros [m e] [k v] a Q. cbn [mo_a fst] in Q. unfold cjv_a.
          rewrite Q. unfold jA. cbn [option_map o2l fst snd].
          pose proof (ccall_does (m, e) (g k v) (MkVs a (vs_b m) (vs_r m)) a (vs_b m) eq_refl eq_refl eq_refl) as D.
          rewrite (KA g k v eq_refl) in D. exact D.
        + unfold jA. cbn [option_map]. rewrite omap_none. cbn [mo_a] in H. unfold jv_drop_a, si_drop_front, does. cbn [runj].
          apply Nat.leb_le in H. rewrite H. eexists. split; [reflexivity|]. cbn. rewrite app_nil_r. auto.
      - intros s n H. cbn [mo_from_b]. unfold from_arg. destruct argB as [g|] eqn:QB.
        + apply for_n_does_b; [|exact H]. intros [m e] [k v] a Q. cbn [mo_b fst] in Q. unfold cjv_b.
          rewrite Q. unfold jA. cbn [option_map o2l fst snd].
          pose proof (ccall_does (m, e) (g k v) (MkVs (vs_a m) a (vs_r m)) (vs_a m) a eq_refl eq_refl eq_refl) as D.
          rewrite (KB g k v eq_refl) in D. exact D.
        + unfold jA. cbn [option_map]. rewrite omap_none. cbn [mo_b] in H. unfold jv_drop_b, si_drop_front, does. cbn [runj].
          apply Nat.leb_le in H. rewrite H. eexists. split; [reflexivity|]. cbn. rewrite app_nil_r. auto.
      - intros [m e] [k v] a [k' w] b Ha Hb. cbn [mo_a mo_b fst] in Ha, Hb. cbn [mo_coll]. unfold cjv_coll.
        rewrite Ha, Hb. unfold jC. cbn [o2l fst snd].
        pose proof (ccall_does (m, e) (argC k v w) (MkVs a b (vs_r m)) a b eq_refl eq_refl eq_refl) as D.
        rewrite KC in D. exact D.
      - reflexivity.
    Qed.

    Lemma tape_tag (t : bool) a b :
      tape_ref (kcmp := kcmp) fst fst (jA argA t) (jA argB t) (jC argC t) a b =
      map (pair t) (jlog (kcmp := kcmp) argA argB argC a b).
    Proof using.
      clear KA KB KC.
      assert (OA : forall Y (arg : option (K -> Y -> X)) l, omap (jA arg t) l = map (pair t) (omap (l_of arg) l)).
      { intros Y arg l. unfold omap. induction l as [|x l IH]; [reflexivity|]. cbn [flat_map]. rewrite IH, map_app.
        f_equal. unfold jA, l_of. destruct arg, x; reflexivity. }
      unfold jlog. revert b. induction a as [|x a IHa]; intros b.
      - cbn [tape_ref]. apply OA.
      - induction b as [|y b IHb]; [rewrite !tape_ref_nil_r; apply OA|].
        rewrite !tape_ref_cons. destruct (kcmp (fst x) (fst y)); rewrite map_app; [rewrite IHa|rewrite IHa|rewrite IHb]; f_equal.
        + unfold jA, l_of. destruct argA, x; reflexivity.
        + unfold jA, l_of. destruct argB, y; reflexivity.
    Qed.

    Lemma cvs_join_spec strat a b e : keys_sorted kcmp a -> keys_sorted kcmp b ->
      cvs_join strat O a b e =
      finished (runj P (map (pair false) (jlog (kcmp := kcmp) argA argB argC a b)) e).
    Proof using KA KB KC L.
      intros Sa Sb. unfold cvs_join. rewrite <- tape_tag.
      exact (merge_finished P L fst fst _ _ _ _ tr snd cjv_jobwise strat (vs_new a b, e) eq_refl Sa Sb).
    Qed.
  End Pure.

  Section InPlace.
    Context (f : clos E X (option V)).
    Local Notation ist := (iprstate (K * V) (K * W)).
    Local Notation tr := (fun s : ist * E => bd_tgt (ipr_a (fst s))).
    Local Notation P := (put_entry clone f key).
    Context (bodyA : ist * E -> nat -> out (ist * E)).
    Context (argA : option (K -> V -> X)) (argB : K -> W -> X) (argC : K -> V -> W -> X).
    Context (KB : forall k v, key (argB k v) = k) (KC : forall k v w, key (argC k v w) = k).
    Local Notation O := (MkMop (fun s : ist * E => bd_src (ipr_a (fst s))) (fun s : ist * E => ipr_b (fst s)) (kvcmp kcmp)
      bodyA (fun s n => for_n n (cji_b clone f argB) s) (ji_coll f argC)).
    Context (BA : forall s n, n <= length (bd_src (ipr_a (fst s))) ->
      does P O tr snd s (omap (jA argA true) (firstn n (bd_src (ipr_a (fst s)))))
        (skipn n (bd_src (ipr_a (fst s)))) (ipr_b (fst s)) (bodyA s n)).

    Lemma ccall_does_i (s : ist * E) x (m' : ist) a' b' :
      bd_tgt (ipr_a m') = bd_tgt (ipr_a (fst s)) -> bd_src (ipr_a m') = a' -> ipr_b m' = b' ->
      does P O tr snd s [(false, x)] a' b' (ccall clone f (snd s) x (key x) (cipr_emit m') m' m').
    Proof using.
      intros Er <- <-. unfold does, ccall. cbn [runj]. unfold put_entry. cbn [fst snd]. rewrite <- Er.
      destruct (f (snd s) x) as [e1 [[r|]|]].
      - destruct (clone e1 (key x)) as [e2 [k'|]].
        + eexists. split; [reflexivity|]. cbn. auto.
        + eexists. split; [reflexivity|]. cbn. now rewrite app_nil_r.
      - eexists. split; [reflexivity|]. cbn. rewrite app_nil_r. auto.
      - eexists. split; [reflexivity|]. cbn. now rewrite app_nil_r.
    Qed.
    Lemma call_does_i (s : ist * E) x (m' : ist) a' b' :
      bd_tgt (ipr_a m') = bd_tgt (ipr_a (fst s)) -> bd_src (ipr_a m') = a' -> ipr_b m' = b' ->
      does P O tr snd s [(true, x)] a' b' (call f (snd s) x (ipr_emit m' (key x)) m').
    Proof using.
      intros Er <- <-. unfold does, call. cbn [runj]. unfold put_entry. cbn [fst snd]. rewrite <- Er.
      destruct (f (snd s) x) as [e1 [[r|]|]]; eexists; (split; [reflexivity|]); cbn; rewrite ?app_nil_r; auto.
    Qed.
    Lemma cji_jobwise : jobwise P (kcmp := kcmp) fst fst (jA argA true) (jA (Some argB) false) (jC argC true) O tr snd.
    Proof using KB KC BA.
      constructor.
      - exact BA.
      - intros s n H. apply for_n_does_b; [|exact H]. intros [m e] [k v] a Q. cbn [mo_b fst] in Q. unfold cji_b.
        rewrite Q. unfold jA. cbn [option_map o2l fst snd].
        pose proof (ccall_does_i (m, e) (argB k v) (MkIpr (ipr_a m) a) (bd_src (ipr_a m)) a eq_refl eq_refl eq_refl) as D.
        rewrite KB in D. exact D.
      - intros [m e] [k v] a [k' w] b Ha Hb. cbn [mo_a mo_b fst] in Ha, Hb. cbn [mo_coll]. unfold ji_coll, bd_pop_front.
        rewrite Ha, Hb. unfold jC. cbn [o2l fst snd].
        pose proof (call_does_i (m, e) (argC k v w) (MkIpr (MkB (bd_tgt (ipr_a m)) a (bd_drop (ipr_a m))) b) a b
          eq_refl eq_refl eq_refl) as D.
        rewrite KC in D. exact D.
      - reflexivity.
    Qed.

    (** keys of arguments made by [argB] alone are cloned *)
    Lemma tape_tag_i (moved : X -> bool) a b :
      (forall h k v, argA = Some h -> moved (h k v) = true) -> (forall k w, moved (argB k w) = false) ->
      (forall k v w, moved (argC k v w) = true) ->
      tape_ref (kcmp := kcmp) fst fst (jA argA true) (jA (Some argB) false) (jC argC true) a b =
      map (fun x => (moved x, x)) (jlog (kcmp := kcmp) argA (Some argB) argC a b).
    Proof using.
      clear KB KC BA. intros MA MB MC.
      assert (OA : forall Y (arg : option (K -> Y -> X)) t l, (forall h k v, arg = Some h -> moved (h k v) = t) ->
        omap (jA arg t) l = map (fun x => (moved x, x)) (omap (l_of arg) l)).
      { intros Y arg t l M. unfold omap. induction l as [|x l IH]; [reflexivity|]. cbn [flat_map]. rewrite IH, map_app.
        f_equal. unfold jA, l_of. destruct arg, x; [|reflexivity]. cbn. now rewrite (M _ _ _ eq_refl). }
      assert (MB' : forall (h : K -> W -> X) k v, Some argB = Some h -> moved (h k v) = false) by (intros h k v [= <-]; auto).
      unfold jlog. revert b. induction a as [|x a IHa]; intros b.
      - cbn [tape_ref]. apply OA. exact MB'.
      - induction b as [|y b IHb]; [rewrite !tape_ref_nil_r; now apply OA|].
        rewrite !tape_ref_cons. destruct (kcmp (fst x) (fst y)); rewrite map_app; [rewrite IHa|rewrite IHa|rewrite IHb]; f_equal.
        + destruct x, y. unfold jC. cbn. now rewrite MC.
        + unfold jA, l_of. destruct argA, x; [|reflexivity]. cbn. now rewrite (MA _ _ _ eq_refl).
        + destruct y. cbn. now rewrite MB.
    Qed.

    Lemma cipr_join_spec strat (moved : X -> bool) a b e :
      (forall h k v, argA = Some h -> moved (h k v) = true) -> (forall k w, moved (argB k w) = false) ->
      (forall k v w, moved (argC k v w) = true) ->
      keys_sorted kcmp a -> keys_sorted kcmp b ->
      cipr_join strat O a b e =
      finished (runj P (map (fun x => (moved x, x)) (jlog (kcmp := kcmp) argA (Some argB) argC a b)) e).
    Proof using KB KC BA L.
      intros MA MB MC Sa Sb. unfold cipr_join. rewrite <- tape_tag_i by assumption.
      exact (merge_finished P L fst fst _ _ _ _ tr snd cji_jobwise strat (ipr_new a b, e) eq_refl Sa Sb).
    Qed.
  End InPlace.
End MapJobs.

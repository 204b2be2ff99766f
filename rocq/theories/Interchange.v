(** Loop interchange: model of sdfg/src/transformations/loop_interchange.cpp. *)
From Coq Require Import Permutation.
From Verif Require Import Sym SymFacts IR IRFacts IRRefine PassCFG PassInline PassCFGProofs2 LoopTile LoopIter Trace Reorder.

(** LoopInterchange::can_be_applied and ::apply (loop_interchange.cpp:20-126) on
    the outer loop node; its transition keeps its assignments (not part of the
    node). [None]: not applicable. (An empty outer body makes the code throw.) *)
Definition interchange (n : node) : option node :=
  match n with
  | NLoop k i init c u (SCons (NLoop k2 j init2 c2 u2 body) [] SNil) =>
      if uses init2 i || cuses c2 i || uses u2 i then None
      else match k, k2 with
           | KFor, KFor => None
           | _, _ => Some (NLoop k2 j init2 c2 u2 (SCons (NLoop k i init c u body) [] SNil))
           end
  | _ => None
  end.

Lemma trip_suffix s i c u v vs e : trip s i c u v vs e -> forall w, In w vs -> exists l vs', vs = l ++ vs' /\ trip s i c u w vs' e /\ (w = v -> l = [] \/ exists l', l = v :: l').
Proof.
  induction 1 as [v H|v v' vs e H1 H2 H3 IH]; intros w; [intros []|].
  intros [<-|Hw].
  - exists [], (v :: vs). split; [reflexivity|]. split; [econstructor; eauto|auto].
  - destruct (IH w Hw) as (l & vs' & -> & T & _). exists (v :: l), vs'. split; [reflexivity|]. split; [exact T|]. eauto.
Qed.
(** a terminating loop with a stable header never repeats a value *)
Lemma trip_nodup s i c u v vs e : trip s i c u v vs e -> NoDup vs.
Proof.
  induction 1 as [v H|v v' vs e H1 H2 H3 IH]; [constructor|]. constructor; [|exact IH].
  intros Hv. destruct (trip_suffix _ _ _ _ _ _ _ H3 v Hv) as (l & vs' & E & T & _).
  assert (T0: trip s i c u v (v :: vs) e) by (econstructor; eauto).
  destruct (trip_det _ _ _ _ _ _ _ T0 _ _ T) as [Q _]. apply (f_equal (@List.length Z)) in E, Q. rewrite app_length in E. simpl in Q. lia.
Qed.

Lemma runl_outcome I i c u s st o st' : runl I i c u s st o st' -> o = ONorm \/ exists r, o = ORet r.
Proof. induction 1; eauto. Qed.

(** One instance of the body, with both loop variables set, and its access log
    (including the setting of the loop variables). *)
Definition inst I (i j : string) (body : seq) (it : Z * Z * trace) : rel := fun a b =>
  exists T o, snd it = Ev true i [] [] :: Ev true j [] [] :: T /\ (o = ONorm \/ o = OCont) /\
    runsT I body (wr (wr a i [] (fst (fst it))) j [] (snd (fst it))) o b T.
(** Different iterations of the outer loop do not conflict outside [P]; cells in
    [P] are private to an instance. *)
Definition outer_independent (P : pcell) (its : list (Z * Z * trace)) : Prop :=
  (forall it, In it its -> private P (snd it)) /\
  (forall it it', In it its -> In it' its -> fst (fst it) <> fst (fst it') -> no_conflict P (snd it) (snd it')).

Lemma inst_local I i j body it a b : inst I i j body it a b -> local (inst I i j body it) (snd it) a b.
Proof.
  intros (T & o & E & Ho & R). rewrite E. change (Ev true i [] [] :: Ev true j [] [] :: T) with ([Ev true i [] []] ++ [Ev true j [] []] ++ T).
  eapply local_impl; [|eapply local_seq; [apply local_wr|eapply local_seq; [apply local_wr|apply (proj1 (proj2 (run_local I)) _ _ _ _ _ R)]]].
  simpl. intros x y (z & -> & z' & -> & Q). exists T, o. auto.
Qed.

Section Interchange.
  Variables (I : nat -> list Z -> option Z) (i j : string) (body : seq).
  Hypothesis Nij : i <> j.
  Hypothesis Wi : ~ In i (swrites body).
  Hypothesis Wj : ~ In j (swrites body).
  Hypothesis NB : sbrk body = false.
  Hypothesis NR : sret body = false.

  Definition P0 : pcell := fun x k => (String.eqb i x || String.eqb j x) && idx_eqb [] k.
  Lemma P0_i : P0 i [] = true. Proof. unfold P0. rewrite String.eqb_refl. reflexivity. Qed.
  Lemma P0_j : P0 j [] = true. Proof. unfold P0. rewrite String.eqb_refl, orb_true_r. reflexivity. Qed.
  Lemma P0_other x : x <> i -> x <> j -> P0 x [] = false.
  Proof. intros A B. unfold P0. destruct (String.eqb_spec i x); [congruence|]. destruct (String.eqb_spec j x); [congruence|]. reflexivity. Qed.
  Lemma P0_inv x k : P0 x k = true -> (x = i \/ x = j) /\ k = [].
  Proof.
    unfold P0. rewrite andb_true_iff, orb_true_iff. intros ([A|A] & B); apply String.eqb_eq in A; apply Trace.idx_eqb_eq in B; auto.
  Qed.
  Lemma inst_private it a b : inst I i j body it a b -> private P0 (snd it).
  Proof.
    intros (T & o & E & _ & _) x k Px. rewrite E. apply P0_inv in Px as ([->| ->] & ->); cbn [exposed].
    - intros (A & _). apply A. auto.
    - intros (_ & A & _). apply A. auto.
  Qed.
  Lemma insts_private its : forall a b, iterL (inst I i j body) its a b -> Forall (fun v => private P0 (snd v)) its.
  Proof. induction its as [|it its IH]; intros a b H; constructor; destruct H as (m & Hm & H); eauto using inst_private. Qed.
  Lemma insts_eqP its a b a2 : iterL (inst I i j body) its a b -> eqP P0 a a2 -> exists b2, iterL (inst I i j body) its a2 b2 /\ eqP P0 b b2.
  Proof. intros H. apply (items_priv _ snd P0 (inst_local I i j body) its (insts_private _ _ _ H) _ _ _ H). Qed.
  Lemma wr_eqP_i a v : eqP P0 a (wr a i [] v).
  Proof. intros x k Px. rewrite wr_other; [reflexivity|]. intros [<- <-]. rewrite P0_i in Px. discriminate. Qed.
  Lemma wr_eqP_j a v : eqP P0 a (wr a j [] v).
  Proof. intros x k Px. rewrite wr_other; [reflexivity|]. intros [<- <-]. rewrite P0_j in Px. discriminate. Qed.

  (** symbols of the headers *)
  Variable H0 : list string.
  Hypothesis WH : forall x, In x H0 -> ~ In x (swrites body).
  Definition same_hdr (a b : store) : Prop := forall x, In x H0 -> x <> i -> x <> j -> a x [] = b x [].
  Lemma hdr_eqP a b c : same_hdr a b -> eqP P0 b c -> same_hdr a c.
  Proof. intros A E x Hx Ni Nj. rewrite (A x Hx Ni Nj). apply E. apply P0_other; auto. Qed.
  Lemma inst_hdr it a b : inst I i j body it a b -> same_hdr a b.
  Proof.
    intros (T & o & _ & _ & R) x Hx Ni Nj. apply (proj1 (proj2 (trace_run I))) in R.
    rewrite (runs_writes I _ _ _ _ x [] R (WH x Hx)). rewrite !wr_other; auto; intros [<- _]; auto.
  Qed.
  Lemma insts_hdr its : forall a b, iterL (inst I i j body) its a b -> same_hdr a b.
  Proof.
    induction its as [|it its IH]; intros a b H.
    - intros x _ _ _. apply steq_at. exact H.
    - destruct H as (m & Hm & H). intros x Hx Ni Nj. rewrite (inst_hdr _ _ _ Hm x Hx Ni Nj). eapply IH; eauto.
  Qed.

  (** from the iterations of an inner loop to instances *)
  Lemma raws_insts_j v ws : forall a m, a i [] = v -> iterL (raw I j body) ws a m ->
    exists its, map fst its = map (pair v) ws /\ iterL (inst I i j body) its a m.
  Proof.
    induction ws as [|w ws IH]; simpl; intros a m Ea H; [exists []; auto|].
    destruct H as (q & (o & Ho & R) & H).
    assert (S: steq (wr a j [] w) (wr (wr a i [] v) j [] w)).
    { apply wr_steq. apply steq_sym'. rewrite <- Ea. apply wr_self. apply eqx_refl. }
    destruct (runs_frame I body _ _ _ none _ R S (avoids_none _)) as (q' & R' & Eq).
    apply (proj1 (proj2 (run_trace I))) in R' as (T & R').
    destruct (IH q m) as (its & E & L); [|exact H|].
    { rewrite (runs_writes I _ _ _ _ i [] R Wi). rewrite wr_other; [exact Ea|]. intros [Q _]. auto. }
    exists ((v, w, Ev true i [] [] :: Ev true j [] [] :: T) :: its). split; [simpl; rewrite E; reflexivity|].
    simpl. exists q'. split; [exists T, o; auto|]. eapply iterL_ext; [|exact L|exact Eq].
    intros it. apply (item_ext _ snd (inst_local I i j body)).
  Qed.
  (** from instances of a column to the iterations of the loop over [i] *)
  Lemma insts_raws_i w vs : forall its a m, a j [] = w -> map fst its = map (fun v => (v, w)) vs -> iterL (inst I i j body) its a m ->
    iterL (raw I i body) vs a m.
  Proof.
    induction vs as [|v vs IH]; intros [|it its] a m Ea E H; try discriminate; [exact H|].
    destruct H as (q & (T & o & _ & Ho & R) & H). simpl in E. injection E as E1 E2. rewrite E1 in R. simpl in R.
    apply (proj1 (proj2 (trace_run I))) in R.
    assert (S: steq (wr (wr a i [] v) j [] w) (wr a i [] v)).
    { rewrite <- Ea. apply steq_intro. intros x k. unfold wr at 1. destruct (String.eqb_spec j x) as [<-|]; simpl; [|reflexivity].
      destruct k; simpl; [|reflexivity]. rewrite wr_other; [reflexivity|]. intros [Q _]; auto. }
    destruct (runs_frame I body _ _ _ none _ R S (avoids_none _)) as (q' & R' & Eq).
    simpl. exists q'. split; [exists o; auto|].
    eapply iterL_ext; [intros; apply raw_ext| |exact Eq]. eapply IH; [|exact E2|exact H].
    rewrite (runs_writes I _ _ _ _ j [] R Wj). apply wr_same.
  Qed.
End Interchange.

(* ---------------------------------------------------------------- *)
(** Conditions on the two headers: neither initial value uses a loop variable,
    the header of one loop does not use the variable of the other, and the body
    writes nothing the headers use. *)
Definition headers_ok (i j : string) (init : expr) (c : cond) (u : expr) (init2 : expr) (c2 : cond) (u2 : expr) (body : seq) : Prop :=
  i <> j /\ ~ In i (atoms init ++ atoms init2 ++ catoms c2 ++ atoms u2) /\ ~ In j (atoms init2 ++ atoms init ++ catoms c ++ atoms u) /\
  forall x, In x (i :: j :: atoms init ++ catoms c ++ atoms u ++ atoms init2 ++ catoms c2 ++ atoms u2) -> ~ In x (swrites body).

Section Main.
  Variables (I : nat -> list Z -> option Z) (k k2 : kind) (i j : string) (init : expr) (c : cond) (u : expr)
    (init2 : expr) (c2 : cond) (u2 : expr) (body : seq) (st : store).
  Hypothesis OK : headers_ok i j init c u init2 c2 u2 body.
  Hypothesis NB : sbrk body = false.
  Hypothesis NR : sret body = false.
  Let H0 := atoms init ++ catoms c ++ atoms u ++ atoms init2 ++ catoms c2 ++ atoms u2.
  Let inner := SCons (NLoop k2 j init2 c2 u2 body) [] SNil.
  Let inner' := SCons (NLoop k i init c u body) [] SNil.
  Notation Q0 := (P0 i j).

  Let Nij : i <> j := proj1 OK.
  Let Wi : ~ In i (swrites body). Proof. apply OK. left. reflexivity. Qed.
  Let Wj : ~ In j (swrites body). Proof. apply OK. right. left. reflexivity. Qed.
  Let WH : forall x, In x H0 -> ~ In x (swrites body). Proof. intros x Hx. apply OK. right. right. exact Hx. Qed.
  Let Ni : ~ In i (atoms init ++ atoms init2 ++ catoms c2 ++ atoms u2) := proj1 (proj2 OK).
  Let Nj : ~ In j (atoms init2 ++ atoms init ++ catoms c ++ atoms u) := proj1 (proj2 (proj2 OK)).

  Lemma stable_inner : stable j c2 u2 body.
  Proof. split; [exact Wj|]. intros x Hx. apply WH. unfold H0. rewrite !in_app_iff in *. tauto. Qed.
  Lemma stable_inner' : stable i c u body.
  Proof. split; [exact Wi|]. intros x Hx. apply WH. unfold H0. rewrite !in_app_iff in *. tauto. Qed.
  Lemma stable_outer : stable i c u inner.
  Proof.
    split; simpl; rewrite app_nil_r.
    - intros [Q|Q]; [congruence|exact (Wi Q)].
    - intros x Hx [<-|Q]; [apply Nj; rewrite !in_app_iff in *; tauto|]. eapply WH; [|exact Q]. unfold H0. rewrite !in_app_iff in *. tauto.
  Qed.
  Lemma stable_outer' : stable j c2 u2 inner'.
  Proof.
    split; simpl; rewrite app_nil_r.
    - intros [Q|Q]; [congruence|exact (Wj Q)].
    - intros x Hx [<-|Q]; [apply Ni; rewrite !in_app_iff in *; tauto|]. eapply WH; [|exact Q]. unfold H0. rewrite !in_app_iff in *. tauto.
  Qed.
  Lemma hdr_eval2 a : same_hdr i j H0 st a -> eval (env_of a) init2 = eval (env_of st) init2.
  Proof.
    intros S. unfold eval. rewrite (ev_agree _ (env_of st)); [reflexivity|]. intros x Hx. unfold env_of. symmetry. apply S.
    - unfold H0. rewrite !in_app_iff. tauto.
    - intros ->. apply Ni. rewrite !in_app_iff. tauto.
    - intros ->. apply Nj. rewrite !in_app_iff. tauto.
  Qed.
  Lemma hdr_eval1 a : same_hdr i j H0 st a -> eval (env_of a) init = eval (env_of st) init.
  Proof.
    intros S. unfold eval. rewrite (ev_agree _ (env_of st)); [reflexivity|]. intros x Hx. unfold env_of. symmetry. apply S.
    - unfold H0. rewrite !in_app_iff. tauto.
    - intros ->. apply Ni. rewrite !in_app_iff. tauto.
    - intros ->. apply Nj. rewrite !in_app_iff. tauto.
  Qed.
  Lemma hdr_trip2 a v ws e : same_hdr i j H0 st a -> (trip (env_of a) j c2 u2 v ws e <-> trip (env_of st) j c2 u2 v ws e).
  Proof.
    intros S. assert (A: forall x, In x (catoms c2 ++ atoms u2) -> x <> j -> env_of a x = env_of st x).
    { intros x Hx N. unfold env_of. symmetry. apply S; [unfold H0; rewrite !in_app_iff in *; tauto| |exact N].
      intros ->. apply Ni. rewrite !in_app_iff in *. tauto. }
    split; apply trip_agree; [exact A|]. intros; symmetry; apply A; auto.
  Qed.
  Lemma hdr_trip1 a v ws e : same_hdr i j H0 st a -> (trip (env_of a) i c u v ws e <-> trip (env_of st) i c u v ws e).
  Proof.
    intros S. assert (A: forall x, In x (catoms c ++ atoms u) -> x <> i -> env_of a x = env_of st x).
    { intros x Hx N. unfold env_of. symmetry. apply S; [unfold H0; rewrite !in_app_iff in *; tauto|exact N|].
      intros ->. apply Nj. rewrite !in_app_iff in *. tauto. }
    split; apply trip_agree; [exact A|]. intros; symmetry; apply A; auto.
  Qed.
  Lemma hdr_wr_i a v : same_hdr i j H0 st a -> same_hdr i j H0 st (wr a i [] v).
  Proof. intros S. eapply hdr_eqP; [exact S|apply wr_eqP_i]. Qed.
  Lemma hdr_wr_j a v : same_hdr i j H0 st a -> same_hdr i j H0 st (wr a j [] v).
  Proof. intros S. eapply hdr_eqP; [exact S|apply wr_eqP_j]. Qed.

  (** one iteration of the outer loop is one row of instances *)
  Lemma row v a m : same_hdr i j H0 st a -> raw I i inner v a m ->
    exists vj ws ej its m2, eval (env_of st) init2 = Some vj /\ trip (env_of st) j c2 u2 vj ws ej /\
      map fst its = map (pair v) ws /\ iterL (inst I i j body) its a m2 /\ eqP Q0 m m2 /\ same_hdr i j H0 st m.
  Proof.
    intros S (o & Ho & R). unfold inner in R. inversion R; subst.
    2:{ match goal with H : run _ (NLoop _ _ _ _ _ _) _ _ _ |- _ => rename H into R' end.
        assert (o <> OBrk /\ o <> OCont) as [X1 X2].
        { inversion R'; subst. match goal with H : runl _ _ _ _ _ _ _ _ |- _ => apply runl_outcome in H as [->|(r & ->)] end; split; discriminate. }
        destruct Ho; contradiction. }
    match goal with H : run _ (NLoop _ _ _ _ _ _) _ _ _ |- _ => inversion H; subst; clear H end.
    match goal with H : exec_assigns _ [] = _ |- _ => injection H as <- end.
    match goal with H : runs _ SNil _ _ _ |- _ => inversion H; subst; clear H end.
    match goal with H : runl _ _ _ _ _ _ _ _ |- _ => rename H into RL end.
    match goal with H : eval _ init2 = Some ?w |- _ => rename H into E2; rename w into vj end.
    destruct (loop_iter I j c2 u2 body stable_inner NB _ _ _ RL) as (ws & b' & Tr & L & Eb).
    rewrite hdr_eval2 in E2 by (apply hdr_wr_i; exact S). rewrite hdr_trip2 in Tr by (apply hdr_wr_i; exact S).
    destruct (raws_insts_j I i j body Nij Wi v ws (wr a i [] v) b' (wr_same _ _ _ _) L) as (its & Ei & Li).
    destruct (insts_eqP I i j body its _ _ a Li) as (m2 & L2 & Em). { apply eqP_sym, wr_eqP_i. }
    exists vj, ws, (m j []), its, m2. split; [exact E2|]. split; [exact Tr|]. split; [exact Ei|]. split; [exact L2|].
    assert (E1: eqP Q0 m b'). { eapply eqP_trans; [apply steq_eqP; exact Eb|]. apply eqP_sym, wr_eqP_j. }
    split; [eapply eqP_trans; eauto|].
    eapply hdr_eqP; [|apply eqP_sym; exact E1]. intros x Hx X1 X2. rewrite (S x Hx X1 X2).
    rewrite <- (insts_hdr I i j body H0 WH _ _ _ Li x Hx X1 X2). rewrite wr_other; [reflexivity|]. intros [Q _]; auto.
  Qed.
  Lemma rows_insts vj ws ej : eval (env_of st) init2 = Some vj -> trip (env_of st) j c2 u2 vj ws ej ->
    forall vs a m a2, same_hdr i j H0 st a -> iterL (raw I i inner) vs a m -> eqP Q0 a a2 ->
    exists rs m2, map (map fst) rs = map (fun v => map (pair v) ws) vs /\ iterL (inst I i j body) (concat rs) a2 m2 /\ eqP Q0 m m2.
  Proof.
    intros E2 Tr. induction vs as [|v vs IH]; intros a m a2 S H E.
    - exists [], a2. split; [reflexivity|]. split; [apply eqx_refl|]. eapply eqP_trans; [|exact E]. apply eqP_sym, steq_eqP. exact H.
    - destruct H as (q & Hq & H). destruct (row v a q S Hq) as (vj' & ws' & ej' & its & m2 & E2' & Tr' & Ei & Li & Em & Sq).
      assert (vj' = vj) by congruence. subst. destruct (trip_det _ _ _ _ _ _ _ Tr _ _ Tr') as [<- _].
      destruct (insts_eqP I i j body its _ _ a2 Li E) as (m3 & L3 & E3).
      destruct (IH q m m3 Sq H) as (rs & m4 & Er & L4 & E4). { eapply eqP_trans; eauto. }
      exists (its :: rs), m4. split; [simpl; rewrite Ei, Er; reflexivity|]. split; [|exact E4].
      simpl. apply (items_app _ snd (inst_local I i j body)). eauto.
  Qed.

  (** columns of instances are iterations of the exchanged nest *)
  Lemma columns_loop vi vs ei : eval (env_of st) init = Some vi -> trip (env_of st) i c u vi vs ei ->
    forall ws cs a m a2, same_hdr i j H0 st a -> map (map fst) cs = map (fun w => map (fun v => (v, w)) vs) ws ->
      iterL (inst I i j body) (concat cs) a m -> eqP Q0 a a2 ->
      exists m2, iterL (raw I j inner') ws a2 m2 /\ eqP Q0 m m2.
  Proof.
    intros E1 Tr. induction ws as [|w ws IH]; intros [|cl cs] a m a2 S Ec H E; try discriminate.
    - exists a2. split; [apply eqx_refl|]. eapply eqP_trans; [|exact E]. apply eqP_sym, steq_eqP. exact H.
    - simpl in Ec. injection Ec as Ec1 Ec2. simpl in H. apply (items_app _ snd (inst_local I i j body)) in H as (q & Hq & H).
      assert (Sa2: same_hdr i j H0 st a2) by (eapply hdr_eqP; eauto).
      destruct (insts_eqP I i j body cl _ _ (wr a2 j [] w) Hq) as (q2 & Hq2 & Eq2). { eapply eqP_trans; [exact E|]. apply wr_eqP_j. }
      assert (Sq2: same_hdr i j H0 st q2).
      { intros x Hx X1 X2. rewrite <- (insts_hdr I i j body H0 WH _ _ _ Hq2 x Hx X1 X2). rewrite (Sa2 x Hx X1 X2). rewrite wr_other; [reflexivity|]. intros [Q _]; auto. }
      pose proof (insts_raws_i I i j body Nij Wj w vs cl (wr a2 j [] w) q2 (wr_same _ _ _ _) Ec1 Hq2) as Hr.
      destruct (iter_loop I i c u body stable_inner' vs (wr a2 j [] w) q2 vi ei) as (b' & RL & Eb); [|exact Hr|].
      { apply hdr_trip1; [apply hdr_wr_j; exact Sa2|exact Tr]. }
      assert (Eb2: eqP Q0 q2 b'). { apply eqP_sym. eapply eqP_trans; [apply steq_eqP; exact Eb|]. apply eqP_sym, wr_eqP_i. }
      destruct (IH cs q m b') as (m2 & H2 & E2); auto.
      + eapply hdr_eqP; [exact Sq2|]. apply eqP_sym. exact Eq2.
      + eapply eqP_trans; eauto.
      + exists m2. split; [|exact E2]. simpl. exists b'. split; [|exact H2]. exists ONorm. split; [auto|].
        unfold inner'. eapply R_cons; [eapply R_loop; [|exact RL]|reflexivity|apply R_nil].
        rewrite hdr_eval1; [exact E1|]. apply hdr_wr_j. exact Sa2.
  Qed.
End Main.

Lemma addrow_fst {A} v vs ws : forall (r : list (Z * Z * A)) cs, map fst r = map (pair v) ws -> map (map fst) cs = map (fun w => map (fun v => (v, w)) vs) ws ->
  map (map fst) (addrow r cs) = map (fun w => map (fun v => (v, w)) (v :: vs)) ws.
Proof.
  induction ws as [|w ws IH]; intros [|x r] [|cl cs] E1 Ec; try discriminate; [reflexivity|].
  simpl in *. injection E1 as Q1 Q2. injection Ec as Q3 Q4. apply f_equal2; [congruence|apply IH; auto].
Qed.
Lemma columns_fst {A} (rs : list (list (Z * Z * A))) : forall vs ws,
  map (map fst) rs = map (fun v => map (pair v) ws) vs -> map (map fst) (columns (List.length ws) rs) = map (fun w => map (fun v => (v, w)) vs) ws.
Proof.
  induction rs as [|r rs IH]; intros [|v vs] ws E; try discriminate.
  - simpl. clear E. induction ws as [|w ws IHw]; simpl; [reflexivity|]. f_equal. exact IHw.
  - simpl in E. injection E as E1 E2. cbn [columns fold_right]. apply addrow_fst; [exact E1|]. apply IH. exact E2.
Qed.
Lemma rows_prod {A} (rs : list (list (Z * Z * A))) : forall vs ws,
  map (map fst) rs = map (fun v => map (pair v) ws) vs -> map fst (concat rs) = list_prod vs ws.
Proof.
  induction rs as [|r rs IH]; intros [|v vs] ws E; try discriminate; [reflexivity|].
  simpl in *. injection E as E1 E2. rewrite map_app, E1, (IH vs ws E2). reflexivity.
Qed.

(** Interchange of a nest whose outer iterations are independent. *)
Lemma interchange_sound I k k2 i j init c u init2 c2 u2 body (P : pcell) n' st o st' :
  let n := NLoop k i init c u (SCons (NLoop k2 j init2 c2 u2 body) [] SNil) in
  interchange n = Some n' ->
  headers_ok i j init c u init2 c2 u2 body -> sbrk body = false -> sret body = false ->
  P i [] = true -> P j [] = true ->
  run I n st o st' ->
  (* an inner header that can be evaluated even if the outer loop runs zero times *)
  (forall vi, eval (env_of st) init = Some vi -> cev (upd (env_of st) i vi) c = Some false ->
     exists vj ws ej, eval (env_of st) init2 = Some vj /\ trip (env_of st) j c2 u2 vj ws ej) ->
  (forall vi vs ei vj ws ej its m,
     eval (env_of st) init = Some vi -> trip (env_of st) i c u vi vs ei ->
     eval (env_of st) init2 = Some vj -> trip (env_of st) j c2 u2 vj ws ej ->
     map fst its = list_prod vs ws -> iterL (inst I i j body) its st m -> outer_independent P its) ->
  exists st'', run I n' st o st'' /\ forall x l, P x l = false -> st'' x l = st' x l.
Proof.
  cbv zeta. intros Hn OK NB NR Pi Pj R Hz Hind.
  assert (En: n' = NLoop k2 j init2 c2 u2 (SCons (NLoop k i init c u body) [] SNil)).
  { simpl in Hn. destruct (_ || _); [discriminate|]. destruct k, k2; congruence. }
  subst n'. clear Hn. inversion R; subst.
  match goal with H : runl _ _ _ _ _ _ _ _ |- _ => rename H into RL end.
  match goal with H : eval _ init = Some ?w |- _ => rename H into E1; rename w into vi end.
  assert (o = ONorm).
  { pose proof (runl_outcome _ _ _ _ _ _ _ _ RL) as [->|(r & ->)]; [reflexivity|].
    elim (proj2 (proj2 (proj2 (proj2 (ret_out I)))) _ _ _ _ _ _ _ RL) with (r := r); [simpl; rewrite NR; reflexivity|reflexivity]. }
  subst o.
  set (H0 := atoms init ++ catoms c ++ atoms u ++ atoms init2 ++ catoms c2 ++ atoms u2).
  destruct (loop_iter I i c u _ (stable_outer k2 i j init c u init2 c2 u2 body OK) eq_refl _ _ _ RL) as (vs & b' & Tr & L & Eb).
  assert (S0: same_hdr i j H0 st st) by (intros x _ _ _; reflexivity).
  assert (exists vj ws ej, eval (env_of st) init2 = Some vj /\ trip (env_of st) j c2 u2 vj ws ej) as (vj & ws & ej & E2 & Tr2).
  { destruct vs as [|v vs].
    - apply (Hz vi E1). inversion Tr; subst. congruence.
    - destruct L as (q & Hq & _).
      destruct (row I k2 i j init c u init2 c2 u2 body st OK NB _ _ _ S0 Hq) as (vj & ws & ej & _ & _ & A & B & _). eauto. }
  destruct (rows_insts I k2 i j init c u init2 c2 u2 body st OK NB vj ws ej E2 Tr2 vs st b' st S0 L (eqP_refl _ _)) as (rs & m & Er & Li & Em).
  pose proof (Hind vi vs _ vj ws ej (concat rs) m E1 Tr E2 Tr2 (rows_prod _ _ _ Er) Li) as (Hp & Hc).
  assert (Lr: Forall (fun r => List.length r = List.length ws) rs).
  { rewrite Forall_forall. intros r Hr. apply (in_map (map fst)) in Hr. rewrite Er in Hr. apply in_map_iff in Hr as (v & Q & _).
    apply (f_equal (@List.length _)) in Q. rewrite !map_length in Q. congruence. }
  destruct (columns_run _ snd P (inst_local I i j body) (List.length ws) rs Lr) with (a := st) (b := m) (a2 := st) as (m2 & L2 & E2').
  - unfold good. rewrite Forall_forall. exact Hp.
  - pose proof (trip_nodup _ _ _ _ _ _ _ Tr) as ND.
    clear - Er ND Hc. revert vs Er ND Hc. induction rs as [|r rs IH]; intros [|v vs] Er ND Hc; try discriminate; constructor.
    + rewrite Forall_forall. intros r2 Hr2 it it' J1 J2. simpl in Er. injection Er as Q1 Q2. inversion ND; subst.
      apply Hc; [simpl; apply in_or_app; auto|simpl; apply in_or_app; right; apply in_concat; eauto|].
      apply (in_map fst) in J1. rewrite Q1 in J1. apply in_map_iff in J1 as (w & <- & _).
      apply (in_map (map fst)) in Hr2. rewrite Q2 in Hr2. apply in_map_iff in Hr2 as (v2 & Q3 & Hv2).
      apply (in_map fst) in J2. rewrite <- Q3 in J2. apply in_map_iff in J2 as (w2 & <- & _). simpl. intros ->. contradiction.
    + simpl in Er. injection Er as Q1 Q2. inversion ND; subst. eapply IH; eauto. intros it it' J1 J2. apply Hc; simpl; apply in_or_app; auto.
  - exact Li.
  - apply eqP_refl.
  - destruct (columns_loop I k i j init c u init2 c2 u2 body st OK vi vs (st' i []) E1 Tr ws _ st m2 st S0 (columns_fst _ _ _ Er) L2 (eqP_refl _ _)) as (m3 & L3 & E3).
    destruct (iter_loop I j c2 u2 _ (stable_outer' k i j init c u init2 c2 u2 body OK) ws st m3 vj ej Tr2 L3) as (b3 & R3 & Eb3).
    exists b3. split; [eapply R_loop; eauto|].
    intros x l Px.
    assert (P0x: P0 i j x l = false).
    { destruct (P0 i j x l) eqn:Q; [|reflexivity]. apply P0_inv in Q as ([->| ->] & ->); congruence. }
    rewrite (steq_at _ _ x l Eb3), <- (wr_eqP_j i j m3 ej x l P0x), <- (E3 x l P0x), <- (E2' x l Px), <- (Em x l P0x), (steq_at _ _ x l Eb).
    apply wr_eqP_i with (j := j). exact P0x.
Qed.

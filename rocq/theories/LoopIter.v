(** Loops as iteration of a body over a list of index values; reordering of
    independent iterations. *)
From Verif Require Import Sym SymFacts IR IRFacts IRRefine PassCFG PassInline PassCFGProofs2 LoopTile.
From Coq Require Import Permutation.

Definition rel := store -> store -> Prop.
Definition cell := string -> list Z -> Prop.

(** Execute the instances [f v] for the values [v] of a list, in order. *)
Fixpoint iterL {A} (f : A -> rel) (l : list A) (a b : store) : Prop :=
  match l with
  | [] => steq a b
  | v :: l' => exists m, f v a m /\ iterL f l' m b
  end.
(** [f] does not distinguish extensionally equal stores. *)
Definition ext (f : rel) : Prop := forall a a' b, f a a' -> steq a b -> exists b', f b b' /\ steq a' b'.

(** [dep inv f R W]: from stores satisfying [inv], [f] changes only the cells
    [W], and what it does depends only on the cells [R]. *)
Definition dep (inv : store -> Prop) (f : rel) (R W : cell) : Prop :=
  forall a a', inv a -> f a a' ->
    (forall x j, ~ W x j -> a' x j = a x j) /\
    (forall b, inv b -> (forall x j, R x j -> b x j = a x j) ->
       exists b', f b b' /\ forall x j, a x j = b x j -> a' x j = b' x j).
Definition disjoint (P Q : cell) : Prop := forall x j, P x j -> Q x j -> False.

Lemma steq_sym' a b : steq a b -> steq b a. Proof. apply eqx_sym. Qed.
Lemma steq_trans' a b c : steq a b -> steq b c -> steq a c. Proof. apply eqx_trans. Qed.
Lemma steq_at a b x j : steq a b -> a x j = b x j. Proof. intros H. apply H. intros []. Qed.
Lemma steq_intro (a b : store) : (forall x j, a x j = b x j) -> steq a b.
Proof. intros H x _ j. auto. Qed.

Section Reorder.
  Context {A : Type}.
  Variable inv : store -> Prop.
  Variable f : A -> rel.
  Hypothesis Fext : forall v, ext (f v).
  Hypothesis Finv : forall v a a', inv a -> f v a a' -> inv a'.
  Hypothesis Iext : forall a b, inv a -> steq a b -> inv b.

  Lemma iterL_ext l : forall a a' b, iterL f l a a' -> steq a b -> iterL f l b a'.
  Proof.
    induction l as [|v l IH]; simpl; intros a a' b H E.
    - eapply steq_trans'; [apply steq_sym'|]; eauto.
    - destruct H as (m & Hm & Hl). destruct (Fext v _ _ _ Hm E) as (m' & Hm' & Em). exists m'; split; auto. eapply IH; eauto.
  Qed.
  Lemma iterL_app l1 l2 : forall a b, iterL f (l1 ++ l2) a b <-> exists m, iterL f l1 a m /\ iterL f l2 m b.
  Proof.
    induction l1 as [|v l1 IH]; simpl; intros a b.
    - split.
      + intros H. exists a. split; [apply eqx_refl|auto].
      + intros (m & E & H). eapply iterL_ext; eauto. apply steq_sym'; auto.
    - split.
      + intros (m & Hm & H). apply IH in H as (q & H1 & H2). eauto.
      + intros (q & (m & Hm & H1) & H2). exists m; split; auto. apply IH. eauto.
  Qed.
  Lemma iterL_inv l : forall a b, inv a -> iterL f l a b -> inv b.
  Proof.
    induction l as [|v l IH]; simpl; intros a b Ha H; [eapply Iext; eauto|]. destruct H as (m & Hm & H). eauto.
  Qed.
  Lemma iterL_end l : forall a b b', iterL f l a b -> steq b b' -> iterL f l a b'.
  Proof.
    induction l as [|v l IH]; simpl; intros a b b' H E; [eapply steq_trans'; eauto|]. destruct H as (m & Hm & H). eauto.
  Qed.

  (** [v] and [w] can be exchanged. *)
  Definition commute (v w : A) : Prop :=
    forall a m b, inv a -> f v a m -> f w m b -> exists m' b', f w a m' /\ f v m' b' /\ steq b b'.

  (** Disjoint footprints imply commutation. *)
  Lemma dep_commute v w Rv Wv Rw Ww : dep inv (f v) Rv Wv -> dep inv (f w) Rw Ww ->
    disjoint Wv Rw -> disjoint Ww Rv -> disjoint Wv Ww -> (forall x j, Wv x j \/ ~ Wv x j) -> commute v w.
  Proof.
    intros Dv Dw D1 D2 D3 Dec a m b Ia Hv Hw.
    pose proof (Finv _ _ _ Ia Hv) as Im.
    destruct (Dv a m Ia Hv) as [Ov Sv]. destruct (Dw m b Im Hw) as [Ow Sw].
    destruct (Sw a Ia) as (m' & Hw' & E1). { intros x j Hr. symmetry. apply Ov. intros Hw1. eapply D1; eauto. }
    pose proof (Finv _ _ _ Ia Hw') as Im'.
    destruct (Dw a m' Ia Hw') as [Ow' _].
    destruct (Sv m' Im') as (b' & Hv' & E2). { intros x j Hr. apply Ow'. intros Hw1. eapply D2; eauto. }
    destruct (Dv m' b' Im' Hv') as [Ov' _].
    exists m', b'. repeat split; auto. apply steq_intro. intros x j.
    destruct (Dec x j) as [Hx|Hx].
    - assert (~ Ww x j) as Hy by (intros Hy; eapply D3; eauto).
      rewrite Ow by auto. apply E2. symmetry. apply Ow'. auto.
    - rewrite Ov' by auto. apply E1. apply Ov. auto.
  Qed.

  Lemma commute_one v l : (forall w, In w l -> commute v w) -> forall a b, inv a -> iterL f (v :: l) a b -> iterL f (l ++ [v]) a b.
  Proof.
    induction l as [|w l IH]; intros C a b Ia H; auto.
    simpl in H. destruct H as (m & Hv & q & Hw & Hl).
    destruct (C w (or_introl eq_refl) a m q Ia Hv Hw) as (m' & q' & Hw' & Hv' & E).
    simpl. exists m'. split; auto. apply IH; [intros; apply C; right; auto|eauto|].
    simpl. exists q'. split; auto. eapply iterL_ext; eauto.
  Qed.
  Lemma commute_blocks l1 l2 : (forall v w, In v l1 -> In w l2 -> commute v w) ->
    forall a b, inv a -> iterL f (l1 ++ l2) a b -> iterL f (l2 ++ l1) a b.
  Proof.
    induction l1 as [|v l1 IH]; intros C a b Ia H; [rewrite app_nil_r; auto|].
    simpl in H. destruct H as (m & Hv & H). apply IH in H; [|intros; apply C; auto; right; auto|eauto].
    assert (iterL f ((v :: l2) ++ l1) a b) as H2 by (simpl; eauto).
    apply iterL_app in H2 as (q & H2 & H3). apply commute_one in H2; auto; [|intros; apply C; auto; left; auto].
    change (v :: l1) with ([v] ++ l1). rewrite app_assoc. apply iterL_app. eauto.
  Qed.

  (** Any order of pairwise commuting iterations. *)
  Lemma iterL_perm l l' : Permutation l l' -> NoDup l -> (forall v w, In v l -> In w l -> v <> w -> commute v w) ->
    forall a b, inv a -> iterL f l a b -> iterL f l' a b.
  Proof.
    intros P. induction P as [|v l l' P IH|v w l|l l' l'' P1 IH1 P2 IH2]; intros ND C a b Ia H; auto.
    - simpl in H. destruct H as (m & Hm & H). simpl. exists m; split; auto. inversion ND; subst. apply IH; auto.
      + intros; apply C; auto; right; auto.
      + eauto.
    - change (w :: v :: l) with ([w] ++ [v] ++ l) in H. change (v :: w :: l) with ([v] ++ [w] ++ l).
      rewrite app_assoc in H. apply iterL_app in H as (m & H & Hl). rewrite app_assoc. apply iterL_app.
      exists m; split; auto. apply commute_blocks; auto.
      intros x y [<-|[]] [<-|[]]. apply C; simpl; auto. inversion ND; subst. simpl in *. intros ->; tauto.
    - apply IH2; auto.
      + eapply Permutation_NoDup; eauto.
      + intros v w Hv Hw. apply C; eapply Permutation_in; try eassumption; apply Permutation_sym; auto.
  Qed.
End Reorder.

(** Exchange of two nested iterations. *)
Section Transpose.
  Context {A B : Type}.
  Variable inv : store -> Prop.
  Variable f : A * B -> rel.
  Hypothesis Fext : forall v, ext (f v).
  Hypothesis Finv : forall v a a', inv a -> f v a a' -> inv a'.
  Hypothesis Iext : forall a b, inv a -> steq a b -> inv b.

  Definition rows (vs : list A) (ws : list B) : list (A * B) := flat_map (fun v => map (fun w => (v, w)) ws) vs.
  Definition cols (vs : list A) (ws : list B) : list (A * B) := flat_map (fun w => map (fun v => (v, w)) vs) ws.

  Lemma cols_nil ws : cols [] ws = [].
  Proof. induction ws; simpl; auto. Qed.
  Lemma add_row v vs ws : ~ In v vs ->
    (forall v v' w w', In v' vs -> v <> v' -> commute inv f (v, w) (v', w')) ->
    forall a b, inv a -> iterL f (map (fun w => (v, w)) ws ++ cols vs ws) a b -> iterL f (cols (v :: vs) ws) a b.
  Proof.
    intros Nv C. induction ws as [|w ws IH]; intros a b Ia H; auto.
    simpl in H. destruct H as (m & Hm & H). simpl. exists m; split; auto.
    assert (inv m) by eauto.
    rewrite app_assoc in H. apply iterL_app in H as (q & H1 & H2); auto.
    eapply (commute_blocks inv f) in H1; eauto.
    - apply iterL_app in H1 as (q1 & H1 & H3); auto. apply iterL_app; auto. exists q1. split; auto.
      apply IH; [eapply iterL_inv; eauto|]. apply iterL_app; eauto.
    - intros x y Hx Hy. apply in_map_iff in Hx as (w1 & <- & _). apply in_map_iff in Hy as (v1 & <- & Hv1).
      apply C; auto. intros ->. contradiction.
  Qed.
  Lemma transpose vs ws : NoDup vs -> (forall v v' w w', In v' vs -> v <> v' -> commute inv f (v, w) (v', w')) ->
    forall a b, inv a -> iterL f (rows vs ws) a b -> iterL f (cols vs ws) a b.
  Proof.
    induction vs as [|v vs IH]; intros ND C a b Ia H; [rewrite cols_nil; auto|].
    inversion ND; subst. simpl in H. apply iterL_app in H as (m & G1 & G2); auto.
    apply add_row; auto; [intros; apply C; auto; right; auto|]. apply iterL_app; auto. exists m. split; auto.
    apply IH; auto; [intros; apply C; auto; right; auto|]. eapply iterL_inv; eauto.
  Qed.
End Transpose.

(* ---------------------------------------------------------------- *)
(** The index values a counted loop goes through: [trip s i c u v vs e]: starting
    at [v] the body runs for the values [vs]; the loop stops at [e]. *)
Inductive trip (s : env) (i : string) (c : cond) (u : expr) : Z -> list Z -> Z -> Prop :=
| T_end v : cev (upd s i v) c = Some false -> trip s i c u v [] v
| T_next v v' vs e : cev (upd s i v) c = Some true -> eval (upd s i v) u = Some v' ->
    trip s i c u v' vs e -> trip s i c u v (v :: vs) e.

Lemma trip_det s i c u v vs e : trip s i c u v vs e -> forall vs' e', trip s i c u v vs' e' -> vs = vs' /\ e = e'.
Proof.
  induction 1 as [v H|v v' vs e H1 H2 H3 IH]; intros vs' e' H'; inversion H'; subst; try congruence; auto.
  assert (v' = v'0) by congruence. subst. match goal with K : trip _ _ _ _ _ _ _ |- _ => destruct (IH _ _ K); subst; auto end.
Qed.
Lemma trip_agree s t i c u v vs e : (forall x, In x (catoms c ++ atoms u) -> x <> i -> s x = t x) ->
  trip s i c u v vs e -> trip t i c u v vs e.
Proof.
  intros Ha. assert (forall v, cev (upd s i v) c = cev (upd t i v) c) as Hc.
  { intros w. apply cev_agree. intros x Hx. unfold upd. destruct (String.eqb_spec i x); auto. apply Ha; auto using in_or_app. }
  assert (forall v, eval (upd s i v) u = eval (upd t i v) u) as Hu.
  { intros w. unfold eval. rewrite (ev_agree (upd s i w) (upd t i w)); auto. intros x Hx. unfold upd. destruct (String.eqb_spec i x); auto. apply Ha; auto using in_or_app. }
  induction 1; econstructor; rewrite <- ?Hc, <- ?Hu; eauto.
Qed.
(** strictly increasing updates visit distinct values *)
Lemma trip_incr s i c u v vs e : (forall w w', eval (upd s i w) u = Some w' -> w < w') ->
  trip s i c u v vs e -> (forall w, In w vs -> v <= w < e) /\ v <= e /\ NoDup vs.
Proof.
  intros Hi. induction 1 as [v H|v v' vs e H1 H2 H3 (IH1 & IH2 & IH3)].
  - split; [intros w []|]. split; [lia|constructor].
  - specialize (Hi _ _ H2). split; [|split; [lia|]].
    + intros w [<-|H]; [lia|]. specialize (IH1 _ H). lia.
    + constructor; auto. intros Hv. specialize (IH1 _ Hv). lia.
Qed.

(** No return inside. *)
Fixpoint nret (n : node) : bool :=
  match n with NReturn _ => true | NSeq s | NWhile s | NLoop _ _ _ _ _ s => sret s | NIf b => bret b | _ => false end
with sret (s : seq) : bool := match s with SNil => false | SCons n a r => nret n || sret r end
with bret (b : brs) : bool := match b with BNil => false | BCons c s r => sret s || bret r end.
Lemma ret_out I :
  (forall n st o st', run I n st o st' -> nret n = false -> forall r, o <> ORet r) /\
  (forall s st o st', runs I s st o st' -> sret s = false -> forall r, o <> ORet r) /\
  (forall b st o st', runb I b st o st' -> bret b = false -> forall r, o <> ORet r) /\
  (forall s st o st', runw I s st o st' -> sret s = false -> forall r, o <> ORet r) /\
  (forall i c u s st o st', runl I i c u s st o st' -> sret s = false -> forall r, o <> ORet r).
Proof.
  apply run_mind; simpl; intros; try discriminate; auto;
    repeat match goal with H : _ || _ = false |- _ => apply orb_false_iff in H as [? ?] end; eauto.
Qed.

(** The loop's own controls are not changed by its body. *)
Definition stable (i : string) (c : cond) (u : expr) (body : seq) : Prop :=
  ~ In i (swrites body) /\ forall x, In x (catoms c ++ atoms u) -> ~ In x (swrites body).

Lemma wr_wr_same a x v w : steq (wr (wr a x [] v) x [] w) (wr a x [] w).
Proof. apply steq_intro. intros y j. unfold wr. destruct (String.eqb x y && idx_eqb [] j); auto. Qed.
Lemma wr_steq a b x j v : steq a b -> steq (wr a x j v) (wr b x j v).
Proof. apply eqx_wr. Qed.
Lemma wr_self a b x : steq a b -> steq (wr a x [] (b x [])) b.
Proof.
  intros E. apply steq_intro. intros y j. unfold wr. destruct (String.eqb_spec x y) as [<-|]; simpl; [destruct j; simpl; auto|]; apply steq_at; auto.
Qed.

(** One iteration with index value [v]; [i] is set first. *)
Definition raw (I : nat -> list Z -> option Z) (i : string) (body : seq) (v : Z) : rel :=
  fun a b => exists o, (o = ONorm \/ o = OCont) /\ runs I body (wr a i [] v) o b.
Lemma raw_ext I i body v : ext (raw I i body v).
Proof.
  intros a a' b (o & Ho & R) Eab.
  destruct (runs_frame I body _ _ _ none (wr b i [] v) R (wr_steq _ _ _ _ _ Eab) (avoids_none _)) as (q & Rq & Eq).
  exists q. split; auto. exists o; auto.
Qed.

Section LoopIter.
  Variables (I : nat -> list Z -> option Z) (i : string) (c : cond) (u : expr) (body : seq).
  Hypothesis St : stable i c u body.

  Lemma runs_env a o m v : runs I body (wr a i [] v) o m ->
    forall x, In x (catoms c ++ atoms u) -> x <> i -> env_of a x = env_of m x.
  Proof.
    intros R x Hx Nx. unfold env_of. rewrite (runs_writes I _ _ _ _ x [] R (proj2 St x Hx)). rewrite wr_other; auto.
  Qed.
  Lemma cev_at a v : cev (env_of (wr a i [] v)) c = cev (upd (env_of a) i v) c.
  Proof. apply cev_agree. intros x _. apply env_wr_scalar. Qed.
  Lemma eval_at a v : eval (env_of (wr a i [] v)) u = eval (upd (env_of a) i v) u.
  Proof. unfold eval. rewrite (ev_agree _ (upd (env_of a) i v)); auto. intros x _. apply env_wr_scalar. Qed.

  (** A loop that ends normally is the iteration of its body. *)
  Lemma loop_iter : sbrk body = false -> forall a v b, runl I i c u body (wr a i [] v) ONorm b ->
    exists vs b', trip (env_of a) i c u v vs (b i []) /\ iterL (raw I i body) vs a b' /\ steq b (wr b' i [] (b i [])).
  Proof.
    intros NB a v b R. remember ONorm as o eqn:Eo. remember (wr a i [] v) as st eqn:Es.
    remember i as i0 in R at 1. remember c as c0 in R. remember u as u0 in R. remember body as body0 in R.
    revert a v Es. induction R; intros a w Es; subst.
    - exists [], a. rewrite wr_same. split; [constructor; rewrite <- cev_at; auto|]. split; apply eqx_refl.
    - destruct (IHR eq_refl eq_refl eq_refl eq_refl eq_refl st1 v eq_refl) as (vs & b' & T & L & E).
      exists (w :: vs), b'. split; [|split; auto].
      + econstructor.
        * rewrite <- cev_at. exact H.
        * rewrite <- H2. unfold eval. rewrite (ev_agree _ (env_of st1)); auto. intros x Hx. unfold upd.
          destruct (String.eqb_spec i x) as [<-|Nx].
          -- unfold env_of. rewrite (runs_writes I _ _ _ _ i [] H0 (proj1 St)). rewrite wr_same; auto.
          -- eapply runs_env; eauto. apply in_or_app; auto.
        * eapply trip_agree; [|exact T]. intros x Hx Nx. symmetry. eapply runs_env; eauto.
      + simpl. exists st1. split; auto. exists o1; auto.
    - exfalso. eapply (proj1 (proj2 (brk_out I))); eauto.
    - discriminate.
  Qed.

  Lemma iter_loop vs : forall a b v e, trip (env_of a) i c u v vs e -> iterL (raw I i body) vs a b ->
    exists b', runl I i c u body (wr a i [] v) ONorm b' /\ steq b' (wr b i [] e).
  Proof.
    induction vs as [|w vs IH]; intros a b v e T L; inversion T; subst.
    - exists (wr a i [] e). split; [constructor; rewrite cev_at; auto|]. apply wr_steq; auto.
    - simpl in L. destruct L as (m & (o & Ho & R) & L).
      destruct (IH m b v' e) as (b' & R' & E'); auto.
      { eapply trip_agree; [|eassumption]. intros x Hx Nx. eapply runs_env; eauto. }
      exists b'. split; auto. eapply R_lnext; eauto; [rewrite cev_at; auto|].
      match goal with H : eval (upd _ _ _) u = Some v' |- _ => rewrite <- H end.
      unfold eval. rewrite (ev_agree _ (upd (env_of a) i w)); auto. intros x Hx. unfold upd.
      destruct (String.eqb_spec i x) as [<-|Nx].
      + unfold env_of. rewrite (runs_writes I _ _ _ _ i [] R (proj1 St)). apply wr_same.
      + symmetry. eapply runs_env; eauto. apply in_or_app; auto.
  Qed.
End LoopIter.

(* ---------------------------------------------------------------- *)
(** Private cells.  [P x j]: the cell is private to an iteration (its value at
    entry is never used): iterations may be compared with private cells restored. *)
Definition eqP (P : string -> list Z -> bool) (a b : store) : Prop := forall x j, P x j = false -> a x j = b x j.
Definition restore (P : string -> list Z -> bool) (a m : store) : store := fun x j => if P x j then a x j else m x j.
(** [f] does not use private cells at entry *)
Definition insens (P : string -> list Z -> bool) (f : rel) : Prop :=
  forall a a' b, f a a' -> eqP P a b -> exists b', f b b' /\ eqP P a' b'.
Definition priv (P : string -> list Z -> bool) (f : rel) : rel := fun a b => exists m, f a m /\ steq b (restore P a m).

Lemma eqP_refl P a : eqP P a a. Proof. intros x j _; auto. Qed.
Lemma eqP_sym P a b : eqP P a b -> eqP P b a. Proof. intros H x j Hx; symmetry; auto. Qed.
Lemma eqP_trans P a b c : eqP P a b -> eqP P b c -> eqP P a c. Proof. intros H K x j Hx; rewrite H; auto. Qed.
Lemma steq_eqP P a b : steq a b -> eqP P a b. Proof. intros H x j _. apply steq_at; auto. Qed.
Lemma restore_eqP P a m : eqP P m (restore P a m). Proof. intros x j Hx. unfold restore. rewrite Hx. auto. Qed.

Lemma priv_ext P f : insens P f -> ext (priv P f).
Proof.
  intros H a a' b (m & Hm & E) Eab. destruct (H _ _ b Hm (steq_eqP _ _ _ Eab)) as (m' & Hm' & Em).
  exists (restore P b m'). split; [exists m'; split; auto; apply eqx_refl|].
  eapply steq_trans'; [exact E|]. apply steq_intro. intros x j. unfold restore. destruct (P x j) eqn:Q; [apply steq_at; auto|apply Em; auto].
Qed.
Lemma raw_priv {A} P (f : A -> rel) l : (forall v, insens P (f v)) -> forall a b a0, iterL f l a b -> eqP P a a0 ->
  exists b0, iterL (fun v => priv P (f v)) l a0 b0 /\ eqP P b b0.
Proof.
  intros H. induction l as [|v l IH]; simpl; intros a b a0 L E.
  - exists a0. split; [apply eqx_refl|]. eapply eqP_trans; [|exact E]. apply eqP_sym, steq_eqP; auto.
  - destruct L as (m & Hm & L). destruct (H v _ _ a0 Hm E) as (m' & Hm' & Em).
    destruct (IH m b (restore P a0 m') L) as (b0 & L0 & E0); [eapply eqP_trans; [exact Em|apply restore_eqP]|].
    exists b0. split; auto. exists (restore P a0 m'). split; auto. exists m'; split; auto. apply eqx_refl.
Qed.
Lemma priv_raw {A} P (f : A -> rel) l : (forall v, insens P (f v)) -> forall a b a0, iterL (fun v => priv P (f v)) l a b -> eqP P a a0 ->
  exists b0, iterL f l a0 b0 /\ eqP P b b0.
Proof.
  intros H. induction l as [|v l IH]; simpl; intros a b a0 L E.
  - exists a0. split; [apply eqx_refl|]. eapply eqP_trans; [|exact E]. apply eqP_sym, steq_eqP; auto.
  - destruct L as (m & (q & Hq & Em) & L). destruct (H v _ _ a0 Hq E) as (q' & Hq' & Eq).
    destruct (IH m b q' L) as (b0 & L0 & E0).
    { eapply eqP_trans; [apply steq_eqP; exact Em|]. eapply eqP_trans; [apply eqP_sym, restore_eqP|exact Eq]. }
    exists b0. split; auto. exists q'. split; auto.
Qed.

(** Reordering iterations that commute up to private cells. *)
Lemma iterL_perm_priv {A} (inv : store -> Prop) P (f : A -> rel) l l' :
  (forall v, insens P (f v)) -> (forall v a a', inv a -> priv P (f v) a a' -> inv a') -> (forall a b, inv a -> steq a b -> inv b) ->
  Permutation l l' -> NoDup l -> (forall v w, In v l -> In w l -> v <> w -> commute inv (fun v => priv P (f v)) v w) ->
  forall a b, inv a -> iterL f l a b -> exists b', iterL f l' a b' /\ eqP P b b'.
Proof.
  intros Hi Hinv Hie Pm ND C a b Ia L. destruct (raw_priv P f l Hi _ _ a L (eqP_refl _ _)) as (b0 & L0 & E0).
  eapply (iterL_perm inv (fun v => priv P (f v))) in L0; eauto using priv_ext.
  destruct (priv_raw P f l' Hi _ _ a L0 (eqP_refl _ _)) as (b1 & L1 & E1). exists b1. split; auto. eapply eqP_trans; eauto.
Qed.

(** Proofs about Par.v: threads follow the sequential semantics, and independent
    iterations can be interleaved. *)
From Coq Require Import Permutation.
From Verif Require Import Sym SymFacts IR IRFacts IRRefine LoopTile LoopIter Trace Reorder DepAna DepProofs Par.

Section Solo.
  Variables (I : nat -> list Z -> option Z) (priv : string -> bool).
  Notation fire := (fire I priv).
  Notation view := (view priv).
  (** a thread running alone: [n] steps with log [T] *)
  Inductive solo : nat -> store -> thread -> trace -> store -> thread -> Prop :=
  | SO_nil g t : solo O g t [] g t
  | SO_cons ev g t g1 t1 n T g' t' : fire g t = Some (ev, g1, t1) -> solo n g1 t1 T g' t' -> solo (S n) g t (ev ++ T) g' t'.
  Lemma solo_app n g t T g1 t1 m T2 g2 t2 : solo n g t T g1 t1 -> solo m g1 t1 T2 g2 t2 -> solo (n + m) g t (T ++ T2) g2 t2.
  Proof.
    intros H. revert m T2 g2 t2. induction H; intros m T2 g2 t2 K; [exact K|]. rewrite <- app_assoc. simpl. econstructor; eauto.
  Qed.

  (** [m] started with memory contents [a] goes, with log [T], to [m'] and [b] *)
  Definition goes (m : micro) (a : store) (T : trace) (m' : micro) (b : store) : Prop :=
    forall g own todo, (forall x j, view g own x j = a x j) ->
    exists n g' own', solo n g (Thr own m todo) T g' (Thr own' m' todo) /\ forall x j, view g' own' x j = b x j.
  Lemma goes_nil m a : goes m a [] m a.
  Proof. intros g own td V. exists O, g, own. split; [constructor|exact V]. Qed.
  Lemma goes_app m a T1 m1 a1 T2 m2 b : goes m a T1 m1 a1 -> goes m1 a1 T2 m2 b -> goes m a (T1 ++ T2) m2 b.
  Proof.
    intros H K g own td V. destruct (H g own td V) as (n1 & g1 & o1 & S1 & V1). destruct (K g1 o1 td V1) as (n2 & g2 & o2 & S2 & V2).
    exists (n1 + n2)%nat, g2, o2. split; [eapply solo_app; eauto|exact V2].
  Qed.
  Lemma goes_go ks a T m b : goes (expand I ks) a T m b -> goes (MGo ks) a T m b.
  Proof.
    intros H g own td V. destruct (H g own td V) as (n & g' & o' & S1 & V1). exists (S n), g', o'. split; [|exact V1].
    change T with ([] ++ T). econstructor; [reflexivity|exact S1].
  Qed.
  Lemma goes_rd x e j k a T m b : goes (k (a x j)) a T m b -> goes (MRd x e j k) a (Ev false x e j :: T) m b.
  Proof.
    intros H g own td V. destruct (H g own td V) as (n & g' & o' & S1 & V1). exists (S n), g', o'. split; [|exact V1].
    change (Ev false x e j :: T) with ([Ev false x e j] ++ T). econstructor; [reflexivity|]. cbn [Par.own]. rewrite V. exact S1.
  Qed.
  Lemma view_wr g ow x j v y k : view (if priv x then g else wr g x j v) (if priv x then wr ow x j v else ow) y k = wr (view g ow) x j v y k.
  Proof.
    unfold Par.view. destruct (String.eqb_spec x y) as [<-|N].
    - destruct (priv x) eqn:E; unfold wr; rewrite E; reflexivity.
    - destruct (priv x) eqn:Ex, (priv y) eqn:Ey; unfold wr; try rewrite Ey; destruct (String.eqb_spec x y); try contradiction; reflexivity.
  Qed.
  Lemma goes_wr x e j v k a T m b : goes k (wr a x j v) T m b -> goes (MWr x e j v k) a (Ev true x e j :: T) m b.
  Proof.
    intros H g own td V.
    destruct (H (if priv x then g else wr g x j v) (if priv x then wr own x j v else own) td) as (n & g' & o' & S1 & V1).
    { intros y l. rewrite view_wr. unfold wr. destruct (_ && _); [reflexivity|apply V]. }
    exists (S n), g', o'. split; [|exact V1].
    change (Ev true x e j :: T) with ([Ev true x e j] ++ T). econstructor; [reflexivity|]. exact S1.
  Qed.
  (* reading symbols *)
  Fixpoint rdenv (l : list string) (rho : env) (a : store) : env :=
    match l with [] => rho | x :: l' => rdenv l' (upd rho x (a x [])) a end.
  Lemma rdenv_out l : forall rho a x, ~ In x l -> rdenv l rho a x = rho x.
  Proof.
    induction l as [|y l IH]; simpl; intros rho a x N; [reflexivity|]. rewrite IH by tauto. unfold upd. destruct (String.eqb_spec y x); tauto.
  Qed.
  Lemma rdenv_in l : forall rho a x, In x l -> rdenv l rho a x = env_of a x.
  Proof.
    induction l as [|y l IH]; simpl; intros rho a x H; [tauto|]. destruct (in_dec string_dec x l) as [Hl|Nl]; [apply IH; exact Hl|].
    destruct H as [->|H]; [|tauto]. rewrite rdenv_out by exact Nl. unfold upd. rewrite String.eqb_refl. reflexivity.
  Qed.
  Lemma goes_all l : forall rho k a T m b, goes (k (rdenv l rho a)) a T m b -> goes (rd_all l rho k) a (rds l ++ T) m b.
  Proof. induction l as [|x l IH]; intros rho k a T m b H; [exact H|]. cbn [rd_all rds map app]. apply goes_rd. apply IH. exact H. Qed.
  Lemma rd_eval a e : eval (rdenv (atoms e) env0 a) e = eval (env_of a) e.
  Proof. unfold eval. rewrite (ev_agree _ (env_of a)); [reflexivity|]. intros x. apply rdenv_in. Qed.
  Lemma rd_cev a c : cev (rdenv (catoms c) env0 a) c = cev (env_of a) c.
  Proof. apply cev_agree. intros x. apply rdenv_in. Qed.
  Lemma rd_evals a sub : evals (rdenv (concat (map atoms sub)) env0 a) sub = evals (env_of a) sub.
  Proof.
    assert (G: forall l (rho rho' : env), (forall x, In x (concat (map atoms l)) -> rho x = rho' x) -> evals rho l = evals rho' l).
    { induction l as [|e l IH]; simpl; intros rho rho' H; [reflexivity|]. unfold eval. rewrite (ev_agree rho rho' e), (IH rho rho'); [reflexivity| |];
      intros x Hx; apply H; apply in_or_app; auto. }
    apply G. intros x. apply rdenv_in.
  Qed.
  Lemma goes_operand o k a v T m b : read_in a o = Some v -> goes (k v) a T m b -> goes (rd_operand o k) a (operand_trace a o ++ T) m b.
  Proof.
    destruct o as [z|x sub]; simpl; intros H G; [injection H as <-; exact G|]. destruct (evals (env_of a) sub) as [j|] eqn:E; [|discriminate].
    injection H as <-. rewrite <- app_assoc. apply goes_all. rewrite rd_evals, E. apply goes_rd. exact G.
  Qed.
  Lemma goes_operands l : forall k a vs T m b, reads_in a l = Some vs -> goes (k vs) a T m b -> goes (rd_operands l k) a (concat (map (operand_trace a) l) ++ T) m b.
  Proof.
    induction l as [|o l IH]; simpl; intros k a vs T m b H G; [injection H as <-; exact G|].
    destruct (read_in a o) as [v|] eqn:E1; [|discriminate]. destruct (reads_in a l) as [vs'|] eqn:E2; [|discriminate]. injection H as <-.
    rewrite <- app_assoc. eapply goes_operand; [exact E1|]. eapply IH; [exact E2|exact G].
  Qed.
  Lemma goes_op o next a a' T m b : exec_op I a o = Some a' -> goes next a' T m b -> goes (do_op I o next) a (op_trace a o ++ T) m b.
  Proof.
    unfold exec_op, do_op, op_trace. intros H G. destruct (reads_in a (o_ins o)) as [vs|] eqn:E1; [|discriminate].
    destruct (evals (env_of a) (o_sub o)) as [j|] eqn:E2; [|discriminate]. destruct (I (o_code o) vs) as [v|] eqn:E3; [|discriminate].
    injection H as <-. rewrite <- !app_assoc. eapply goes_operands; [exact E1|]. apply goes_all. rewrite rd_evals, E2, E3. apply goes_wr. exact G.
  Qed.
  Lemma goes_block b : forall a a' ks, exec_block I a b = Some a' -> goes (MGo (FO b :: ks)) a (block_trace I a b) (MGo ks) a'.
  Proof.
    induction b as [|o b IH]; simpl; intros a a' ks H.
    - injection H as <-. apply goes_go. apply goes_nil.
    - destruct (exec_op I a o) as [a1|] eqn:E; [|discriminate]. apply goes_go. cbn [expand]. eapply goes_op; [exact E|]. apply IH. exact H.
  Qed.
  Lemma goes_asg l : forall a a' ks, exec_assigns a l = Some a' -> goes (MGo (FA l :: ks)) a (asg_trace l) (MGo ks) a'.
  Proof.
    induction l as [|[x e] l IH]; intros a a' ks H; cbn [exec_assigns] in H.
    - injection H as <-. apply goes_go. apply goes_nil.
    - destruct (eval (env_of a) e) as [v|] eqn:E; [|discriminate]. apply goes_go. cbn [expand]. unfold asg_trace. cbn [map concat fst snd].
      rewrite <- app_assoc. apply goes_all. rewrite rd_eval, E. apply goes_wr. apply IH. exact H.
  Qed.

  (** where a thread goes on after leaving a node with an outcome *)
  Definition after (o : outcome) (ks : list frame) : micro :=
    match o with ONorm => MGo ks | OBrk => exit_brk ks | OCont => exit_cont ks | ORet r => MStop (ORet r) end.
  Lemma goes_run :
    (forall n a o b T, runT I n a o b T -> forall ks, goes (MGo (FN n :: ks)) a T (after o ks) b) /\
    (forall s a o b T, runsT I s a o b T -> forall ks, goes (MGo (FS s :: ks)) a T (after o ks) b) /\
    (forall bs a o b T, runbT I bs a o b T -> forall ks, goes (MGo (FB bs :: ks)) a T (after o ks) b) /\
    (forall s a o b T, runwT I s a o b T -> forall ks, goes (MGo (FW s :: ks)) a T (after o ks) b) /\
    (forall j c u s a o b T, runlT I j c u s a o b T -> forall ks, goes (MGo (FL j c u s :: ks)) a T (after o ks) b).
  Proof.
    apply runT_mind; intros.
    - apply goes_go. cbn [expand after]. apply goes_block. assumption.
    - apply goes_go. cbn [expand]. apply H0.
    - apply goes_go. cbn [expand]. apply H0.
    - apply goes_go. cbn [expand]. apply H0.
    - apply goes_go. cbn [expand]. apply goes_all. rewrite rd_eval, H. apply goes_wr. apply H1.
    - apply goes_go. apply goes_nil.
    - apply goes_go. apply goes_nil.
    - apply goes_go. apply goes_nil.
    - apply goes_go. apply goes_nil.
    - apply goes_go. cbn [expand]. eapply goes_app; [apply H0|]. cbn [after]. eapply goes_app; [apply goes_asg; exact H1|]. apply H3.
    - apply goes_go. cbn [expand]. specialize (H0 (FA a :: FS r :: ks)). destruct o; [congruence|exact H0|exact H0|exact H0].
    - apply goes_go. apply goes_nil.
    - apply goes_go. cbn [expand]. apply goes_all. rewrite rd_cev, H. apply H1.
    - apply goes_go. cbn [expand]. apply goes_all. rewrite rd_cev, H. apply H1.
    - apply goes_go. cbn [expand]. eapply goes_app; [|apply H3]. specialize (H0 (FW s :: ks)). destruct H1 as [-> | ->]; exact H0.
    - apply goes_go. cbn [expand]. exact (H0 (FW s :: ks)).
    - apply goes_go. cbn [expand]. exact (H0 (FW s :: ks)).
    - apply goes_go. cbn [expand]. rewrite <- (app_nil_r (rds (catoms c))). apply goes_all. rewrite rd_cev, H. apply goes_nil.
    - apply goes_go. cbn [expand]. apply goes_all. rewrite rd_cev, H. eapply goes_app with (m1 := MGo (FU i c u s :: ks)).
      + specialize (H1 (FU i c u s :: ks)). destruct H2 as [-> | ->]; exact H1.
      + apply goes_go. cbn [expand]. apply goes_all. rewrite rd_eval, H3. apply goes_wr. apply H5.
    - apply goes_go. cbn [expand]. apply goes_all. rewrite rd_cev, H. exact (H1 (FU i c u s :: ks)).
    - apply goes_go. cbn [expand]. apply goes_all. rewrite rd_cev, H. exact (H1 (FU i c u s :: ks)).
  Qed.

  (** program [fst it] executed with log [snd it] and no failure, break or return *)
  Definition instP (it : seq * trace) : rel := fun a b => exists o, (o = ONorm \/ o = OCont) /\ runsT I (fst it) a o b (snd it).
  Lemma instP_local it a b : instP it a b -> local (instP it) (snd it) a b.
  Proof.
    intros (o & Ho & R). eapply local_impl; [|apply (proj1 (proj2 (run_local I)) _ _ _ _ _ R)]. simpl. intros x y Q. exists o. auto.
  Qed.
  Lemma instP_det it a b b' : instP it a b -> instP it a b' -> b = b'.
  Proof.
    intros (o & _ & R) (o' & _ & R'). apply (proj1 (proj2 (trace_run I))) in R, R'. eapply runs_det; [exact R|exact R'].
  Qed.
  (** a thread alone executes its programs one after the other *)
  Lemma chunk_solo its : forall a b g own m, iterL instP its a b -> (forall x j, view g own x j = a x j) ->
    m = MStop ONorm \/ m = MStop OCont ->
    exists n g' t', solo n g (Thr own m (map fst its)) (concat (map snd its)) g' t' /\ finished t' /\
      forall x j, view g' (Par.own t') x j = b x j.
  Proof.
    induction its as [|it its IH]; intros a b g own m L V Hm.
    - exists O, g, (Thr own m []). split; [constructor|]. split; [split; [exact Hm|reflexivity]|]. intros x j. cbn [Par.own]. rewrite V. apply steq_at. exact L.
    - destruct L as (a1 & (o & Ho & R) & L). cbn [map concat].
      destruct (proj1 (proj2 goes_run) _ _ _ _ _ R [] g own (map fst its) V) as (n1 & g1 & o1 & S1 & V1).
      assert (Q: exists m1 n0, (m1 = MStop ONorm \/ m1 = MStop OCont) /\ solo n0 g1 (Thr o1 (after o []) (map fst its)) [] g1 (Thr o1 m1 (map fst its))).
      { destruct Ho as [-> | ->].
        - exists (MStop ONorm), 1%nat. split; [auto|]. change (@nil event) with (@nil event ++ []). econstructor; [reflexivity|constructor].
        - exists (MStop OCont), O. split; [auto|]. constructor. }
      destruct Q as (m1 & n0 & Hm1 & S0).
      destruct (IH a1 b g1 o1 m1 L V1 Hm1) as (n2 & g2 & t2 & S2 & F2 & V2).
      exists (S (n1 + (n0 + n2))), g2, t2. split; [|auto].
      change (snd it ++ concat (map snd its)) with ([] ++ snd it ++ concat (map snd its)). econstructor.
      + destruct Hm as [-> | ->]; reflexivity.
      + eapply solo_app; [exact S1|]. change (concat (map snd its)) with ([] ++ concat (map snd its)). eapply solo_app; [exact S0|exact S2].
  Qed.
  Lemma solo_det n g t T g' t' : solo n g t T g' t' -> finished t' -> forall m T2 g2 t2, solo m g t T2 g2 t2 ->
    (m <= n)%nat /\ exists T3, T = T2 ++ T3 /\ solo (n - m) g2 t2 T3 g' t'.
  Proof.
    intros H F. induction H as [g t|ev g t g1 t1 n T g' t' E H IH]; intros m T2 g2 t2 K.
    - destruct K as [|ev g t g1 t1 m T2 g2 t2 E K]; [split; [lia|]; exists []; split; [reflexivity|constructor]|].
      destruct F as [[F|F] F2]; unfold Par.fire in E; rewrite F, F2 in E; discriminate.
    - destruct K as [|ev' g t g1' t1' m T2 g2 t2 E' K].
      + split; [lia|]. exists (ev ++ T). split; [reflexivity|]. cbn [Nat.sub]. econstructor; eauto.
      + rewrite E in E'. injection E' as <- <- <-. destruct (IH F _ _ _ _ K) as (Le & T3 & -> & K3). split; [lia|]. exists T3.
        split; [apply app_assoc|exact K3].
  Qed.
End Solo.

Definition touched (T : trace) (x : string) (j : list Z) : Prop := exists w e, In (Ev w x e j) T.
Lemma touched_written T x j : written T x j -> touched T x j.
Proof. intros (e & H). exists true, e. exact H. Qed.
Lemma touched_app T1 T2 x j : touched (T1 ++ T2) x j <-> touched T1 x j \/ touched T2 x j.
Proof.
  unfold touched. split; [intros (w & e & H); apply in_app_iff in H as [H|H]; eauto|intros [(w & e & H)|(w & e & H)]; exists w, e; apply in_app_iff; auto].
Qed.
Lemma touched_split T x j : touched T x j -> written T x j \/ exposed T x j.
Proof.
  induction T as [|[w y e k] T IH]; intros (w' & e' & H); [elim H|].
  destruct w.
  - destruct (string_dec y x) as [->|N].
    + destruct (list_eq_dec Z.eq_dec k j) as [->|N].
      * left. apply written_cons. auto.
      * destruct H as [H|H]; [congruence|]. destruct IH as [IH|IH]; [exists w', e'; exact H|left; apply written_cons; auto|right; simpl; tauto].
    + destruct H as [H|H]; [congruence|]. destruct IH as [IH|IH]; [exists w', e'; exact H|left; apply written_cons; auto|right; simpl; tauto].
  - destruct H as [H|H]; [injection H as <- -> -> ->; right; simpl; auto|].
    destruct IH as [IH|IH]; [exists w', e'; exact H|left; apply written_cons; auto|right; simpl; tauto].
Qed.

Lemma exposed_dec T x j : exposed T x j \/ ~ exposed T x j.
Proof.
  induction T as [|[w y e k] T IH]; [right; intros []|].
  assert (Q: (y = x /\ k = j) \/ ~ (y = x /\ k = j)).
  { destruct (string_dec y x); [|right; tauto]. destruct (list_eq_dec Z.eq_dec k j); [left; auto|right; tauto]. }
  destruct w; simpl; tauto.
Qed.

Section Team.
  Variables (I : nat -> list Z -> option Z) (priv : string -> bool).
  Notation fire := (fire I priv).
  Notation solo := (solo I priv).
  Notation pstep := (pstep I priv).
  Notation psteps := (psteps I priv).

  Record slot := Slot { s_t : thread; s_d : trace; s_r : trace; s_n : nat; s_g : store; s_T : trace; s_gf : store; s_tf : thread }.
  Definition ok (s : slot) : Prop := s_d s ++ s_r s = s_T s /\ solo (s_n s) (s_g s) (s_t s) (s_r s) (s_gf s) (s_tf s) /\ finished (s_tf s).
  Definition apart_slots (sl : list slot) : Prop := forall p q s u x j, p <> q -> nth_error sl p = Some s -> nth_error sl q = Some u ->
    priv x = false -> written (s_T u) x j -> ~ touched (s_T s) x j.
  Definition inv (g0 g : store) (sl : list slot) : Prop :=
    Forall ok sl /\ apart_slots sl /\
    (forall p s x j, nth_error sl p = Some s -> priv x = false ->
       (forall q u, q <> p -> nth_error sl q = Some u -> ~ written (s_d u) x j) -> g x j = s_g s x j) /\
    (forall x j, priv x = false -> (forall s, In s sl -> ~ written (s_d s) x j) -> g x j = g0 x j).

  Lemma nth_mid {A} (l r : list A) a b q : nth_error (l ++ a :: r) q = if Nat.eqb q (List.length l) then Some a else nth_error (l ++ b :: r) q.
  Proof.
    revert q. induction l as [|x l IH]; intros [|q]; simpl; auto.
  Qed.
  Lemma nth_at {A} (l r : list A) a : nth_error (l ++ a :: r) (List.length l) = Some a.
  Proof. induction l; simpl; auto. Qed.

  (** the same step on another memory that agrees where it reads *)
  Lemma fire_same g gv t ev g' t' : fire g t = Some (ev, g', t') ->
    (forall x j, priv x = false -> touched ev x j -> g x j = gv x j) ->
    exists gv', fire gv t = Some (ev, gv', t') /\
      (forall x j, priv x = false -> written ev x j -> g' x j = gv' x j) /\
      (forall x j, ~ (priv x = false /\ written ev x j) -> g' x j = g x j /\ gv' x j = gv x j).
  Proof.
    destruct t as [ow m td]. unfold Par.fire. cbn [at_ own todo]. destruct m as [x e j k|x e j v k|ks|o|]; intros H A.
    - injection H as <- <- <-. exists gv. split; [|split].
      + replace (view priv gv ow x j) with (view priv g ow x j); [reflexivity|]. unfold view. destruct (priv x) eqn:P; [reflexivity|].
        apply A; [exact P|]. exists false, e. left. reflexivity.
      + intros y k0 _ (e0 & [W|[]]). discriminate.
      + auto.
    - injection H as <- <- <-. exists (if priv x then gv else wr gv x j v). split; [reflexivity|]. destruct (priv x) eqn:P.
      + split; [|auto]. intros y k0 Py (e0 & [W|[]]). congruence.
      + split.
        * intros y k0 Py (e0 & [W|[]]). injection W as -> -> ->. rewrite !Trace.wr_same. reflexivity.
        * intros y k0 N. rewrite !Trace.wr_other; auto; intros (-> & ->); apply N; (split; [exact P|]); exists e; left; reflexivity.
    - injection H as <- <- <-. exists gv. split; [reflexivity|]. split; [|auto]. intros y k0 _ (e0 & []).
    - destruct o as [| | |r]; try discriminate; destruct td as [|v vs]; try discriminate; injection H as <- <- <-;
        exists gv; (split; [reflexivity|]); (split; [|auto]); intros y k0 Py (e0 & []).
    - discriminate.
  Qed.

  Lemma sum_mid l (s : slot) r : list_sum (map s_n (l ++ s :: r)) = (s_n s + list_sum (map s_n (l ++ r)))%nat.
  Proof. rewrite !map_app, !list_sum_app. simpl. lia. Qed.

  Lemma step_inv g0 g sl d : inv g0 g sl -> pstep (g, map s_t sl) d ->
    exists sl', snd d = map s_t sl' /\ inv g0 (fst d) sl' /\ S (list_sum (map s_n sl')) = list_sum (map s_n sl) /\
      map s_T sl' = map s_T sl /\ map s_gf sl' = map s_gf sl.
  Proof.
    intros (OK & AP & SH & ZR) H. inversion H as [g1 l t r ev g' t' F E1 E3]; subst. clear H.
    match goal with Q : l ++ t :: r = map s_t sl |- _ => rename Q into E2 end. symmetry in E2.
    apply map_eq_app in E2. destruct E2 as (sa & sb & -> & <- & E2). apply map_eq_cons in E2. destruct E2 as (s & sb' & -> & <- & <-). rename sb' into sb.
    apply Forall_app in OK as [OKa OKb]. inversion OKb as [|? ? OKs OKb']; subst. clear OKb.
    destruct OKs as (ED & SO & FI).
    set (p := List.length sa).
    assert (Np: nth_error (sa ++ s :: sb) p = Some s) by apply nth_at.
    (* the solo run takes the same step *)
    inversion SO as [? ? A1 A2 A3 A4 A5 A6|ev1 ? ? gv1 t1 n1 T1 ? ? F1 SO1 A1 A2 A3 A4 A5 A6]; subst.
    { exfalso. destruct FI as [[FI|FI] F2]; unfold Par.fire in F; rewrite <- ?A5, <- ?A6 in *; rewrite FI, F2 in F; discriminate. }
    assert (TCH: forall ev2, s_d s ++ ev2 ++ T1 = s_T s -> forall x j, priv x = false -> touched ev2 x j -> g x j = s_g s x j).
    { intros ev2 EE x j Px Tx. apply (SH p s x j Np Px). intros q u Nq Hq W. refine (AP p q s u x j _ Np Hq Px _ _); [congruence| |].
      - pose proof (nth_error_In _ _ Hq) as Hu. assert (In u sa \/ In u sb \/ u = s) as Hu'. { apply in_app_iff in Hu as [Hu|[Hu|Hu]]; auto. }
        assert (OKu: ok u). { destruct Hu' as [Hu'|[Hu'|Hu']]; [rewrite Forall_forall in OKa; auto|rewrite Forall_forall in OKb'; auto|subst u; split; [exact ED|auto]]. }
        destruct OKu as (EU & _). rewrite <- EU. apply written_app. auto.
      - rewrite <- EE. apply touched_app. right. apply touched_app. auto. }
    assert (AG: forall x j, priv x = false -> touched ev1 x j -> s_g s x j = g x j).
    { intros x j Px Tx. symmetry. apply (TCH ev1); auto. congruence. }
    destruct (fire_same (s_g s) g (s_t s) ev1 gv1 t1 F1 AG) as (g1' & F2 & W1 & W2).
    rewrite F in F2. injection F2 as -> -> ->.
    pose (s' := Slot t1 (s_d s ++ ev1) T1 n1 gv1 (s_T s) (s_gf s) (s_tf s)).
    exists (sa ++ s' :: sb). cbn [fst snd].
    assert (NQ: forall q, q <> p -> nth_error (sa ++ s' :: sb) q = nth_error (sa ++ s :: sb) q).
    { intros q Nq. rewrite (nth_mid sa sb s' s q). destruct (Nat.eqb_spec q p) as [Q|_]; [congruence|]. destruct (Nat.eqb_spec q (List.length sa)); [contradiction|reflexivity]. }
    assert (NP': nth_error (sa ++ s' :: sb) p = Some s') by apply nth_at.
    split; [rewrite !map_app; reflexivity|]. split; [|split; [|split]].
    - split; [|split; [|split]].
      + apply Forall_app. split; [exact OKa|]. constructor; [|exact OKb']. split; [|split; [exact SO1|exact FI]]. cbn [s' s_d s_r s_T]. rewrite <- app_assoc. congruence.
      + intros q1 q2 v w x j Nq H1 H2 Px W.
        assert (TT: forall q v, nth_error (sa ++ s' :: sb) q = Some v -> exists v0, nth_error (sa ++ s :: sb) q = Some v0 /\ s_T v0 = s_T v).
        { intros q v0 Hv. destruct (Nat.eq_dec q p) as [->|Nq']; [rewrite NP' in Hv; injection Hv as <-; exists s; auto|]. rewrite NQ in Hv by exact Nq'. eauto. }
        destruct (TT _ _ H1) as (v0 & H1' & <-). destruct (TT _ _ H2) as (w0 & H2' & E). rewrite <- E in W. eapply AP; eauto.
      + intros q v x j Hq Px NW. destruct (Nat.eq_dec q p) as [->|Nq].
        * rewrite NP' in Hq. injection Hq as <-. cbn [s' s_g].
          destruct (written_dec ev1 x j) as [W|N]; [symmetry; apply W1; auto|]. destruct (W2 x j) as (G1 & G2); [intros (_ & W); exact (N W)|].
          rewrite G1, G2. apply (SH p s x j Np Px). intros q u Nq Hq. rewrite <- NQ in Hq by exact Nq. eauto.
        * rewrite NQ in Hq by exact Nq.
          assert (N': ~ written (s_d s ++ ev1) x j). { apply (NW p s'); [congruence|exact NP']. }
          rewrite written_app in N'. destruct (W2 x j) as (G1 & G2); [intros (_ & W); tauto|]. rewrite G2. apply (SH q v x j Hq Px).
          intros q' u Nq' Hq'. destruct (Nat.eq_dec q' p) as [->|Np']; [rewrite Np in Hq'; injection Hq' as <-; tauto|].
          apply (NW q' u Nq'). rewrite NQ by exact Np'. exact Hq'.
      + intros x j Px NW. assert (N': ~ written (s_d s ++ ev1) x j). { apply (NW s'). apply in_or_app. right. left. reflexivity. }
        rewrite written_app in N'. destruct (W2 x j) as (G1 & G2); [intros (_ & W); tauto|]. rewrite G2. apply ZR; [exact Px|].
        intros u Hu. apply in_app_iff in Hu as [Hu|[<-|Hu]]; [apply NW, in_or_app; auto|tauto|apply NW, in_or_app; right; right; exact Hu].
    - rewrite !sum_mid. cbn [s' s_n]. lia.
    - rewrite !map_app. reflexivity.
    - rewrite !map_app. reflexivity.
  Qed.
  Lemma steps_inv g0 sl n g : inv g0 g sl -> forall d, psteps n (g, map s_t sl) d ->
    exists sl', snd d = map s_t sl' /\ inv g0 (fst d) sl' /\ (n + list_sum (map s_n sl'))%nat = list_sum (map s_n sl) /\
      map s_T sl' = map s_T sl /\ map s_gf sl' = map s_gf sl.
  Proof.
    intros V d H. remember (g, map s_t sl) as c eqn:Ec. induction H as [c|n c d e H IH Hs]; subst.
    - exists sl. auto.
    - destruct (IH eq_refl) as (s1 & E1 & V1 & N1 & T1 & F1). destruct d as [gd td]. cbn [fst snd] in *. subst td.
      destruct (step_inv g0 gd s1 e V1 Hs) as (s2 & E2 & V2 & N2 & T2 & F2). exists s2. split; [exact E2|]. split; [exact V2|]. split; [lia|]. split; congruence.
  Qed.
  (** a thread that is not finished can take a step *)
  Lemma slot_progress g0 g sl s : inv g0 g sl -> In s sl -> finished (s_t s) \/ exists ev g' t', fire g (s_t s) = Some (ev, g', t').
  Proof.
    intros (OK & _) Hs. rewrite Forall_forall in OK. destruct (OK s Hs) as (_ & SO & FI).
    inversion SO as [? ? A1 A2 A3 A4 A5 A6|ev1 ? ? gv1 t1 n1 T1 ? ? F1 SO1 A1 A2 A3 A4 A5 A6]; subst; [left; rewrite A6; exact FI|right].
    destruct (s_t s) as [ow m td]. unfold Par.fire in *. cbn [at_ own todo] in *. destruct m as [x e j k|x e j v k|ks|o|]; eauto; try discriminate.
    destruct o as [| | |r]; try discriminate; destruct td; try discriminate; eauto.
  Qed.
  (** no two threads are about to access the same shared cell, one writing *)
  Lemma slot_race g0 g sl p q s u ev g' t' ev2 g2 t2 x j : inv g0 g sl -> p <> q -> nth_error sl p = Some s -> nth_error sl q = Some u ->
    fire g (s_t s) = Some (ev, g', t') -> fire g (s_t u) = Some (ev2, g2, t2) -> priv x = false -> written ev x j -> touched ev2 x j -> False.
  Proof.
    intros V Npq Hs Hu F1 F2 Px W T.
    assert (K: forall v p0 e0 g0' t0', nth_error sl p0 = Some v -> fire g (s_t v) = Some (e0, g0', t0') -> forall y k w e, In (Ev w y e k) e0 -> In (Ev w y e k) (s_T v)).
    { intros v p0 e0 g0' t0' Hv F y k w e Hi. destruct V as (OK & _). rewrite Forall_forall in OK. destruct (OK v (nth_error_In _ _ Hv)) as (ED & SO & FI).
      inversion SO as [? ? A1 A2 A3 A4 A5 A6|ev1 ? ? gv1 t1 n1 T1 ? ? Fv SO1 A1 A2 A3 A4 A5 A6]; subst.
      { exfalso. rewrite A6 in F. destruct FI as [[FI|FI] FI2]; unfold Par.fire in F; rewrite FI, FI2 in F; discriminate. }
      rewrite <- ED, <- A4. apply in_or_app. right. apply in_or_app. left.
      destruct (s_t v) as [ow m td]. unfold Par.fire in *. cbn [at_ own todo] in *. destruct m as [y1 e1 j1 k1|y1 e1 j1 v1 k1|ks|o|]; try discriminate;
        try (injection F as <- <- <-; injection Fv as <- <- <-; exact Hi).
      destruct o as [| | |r]; try discriminate; destruct td; try discriminate; injection F as <- <- <-; injection Fv as <- <- <-; exact Hi. }
    destruct V as (_ & AP & _). destruct W as (e & W). destruct T as (w2 & e2 & T). refine (AP q p u s x j _ Hu Hs Px _ _); [congruence| |].
    - exists e. eapply K; eauto.
    - exists w2, e2. eapply K; eauto.
  Qed.
End Team.

(* ---------------------------------------------------------------- *)
(** Iterations: what each of them does alone, from the store before the map,
    determines every interleaving. *)
Section Iters.
  Variables (I : nat -> list Z -> option Z) (priv : string -> bool).
  Definition byname : pcell := fun x _ => priv x.
  Notation f := (instP I).
  Definition nconf (v w : seq * trace) : Prop := no_conflict byname (snd v) (snd w).
  Lemma nconf_sym v w : nconf v w -> nconf w v. Proof. apply no_conflict_sym. Qed.

  (** executed in any order from a store that agrees with [a0] on what they read,
      the iterations leave what each of them leaves alone *)
  Lemma items_value a0 l : (forall it, In it l -> exists b, f it a0 b) -> (forall it, In it l -> private byname (snd it)) ->
    ForallOrdPairs nconf l -> forall a, (forall it x j, In it l -> exposed (snd it) x j -> a x j = a0 x j) ->
    exists b, iterL f l a b /\
      (forall it b0 x j, In it l -> f it a0 b0 -> priv x = false -> written (snd it) x j -> b x j = b0 x j) /\
      (forall x j, priv x = false -> (forall it, In it l -> ~ written (snd it) x j) -> b x j = a x j).
  Proof.
    induction l as [|it l IH]; intros EX PR NC a AG.
    - exists a. split; [apply eqx_refl|]. split; [intros it b0 x j []|auto].
    - inversion NC as [|? ? N1 N2]; subst. rewrite Forall_forall in N1.
      destruct (EX it ltac:(left; reflexivity)) as (b0 & H0). destruct (instP_local I it a0 b0 H0) as (F0 & L0).
      destruct (L0 a) as (m & Hm & Fm & Wm). { intros x j X. symmetry. apply (AG it); [left; reflexivity|exact X]. }
      destruct (IH ltac:(intros; apply EX; right; assumption) ltac:(intros; apply PR; right; assumption) N2 m) as (b & Lb & Vb & Zb).
      { intros w x j Hw X. assert (Px: priv x = false). { destruct (priv x) eqn:P; [|reflexivity]. elim (PR w ltac:(right; exact Hw) x j P X). }
        rewrite Fm; [apply (AG w); [right; exact Hw|exact X]|]. intros W. exact (proj2 (proj1 (N1 w Hw x j Px) W) X). }
      exists b. split; [exists m; auto|]. split.
      + intros w b1 x j [<-|Hw] H1 Px W.
        * rewrite (instP_det I it a0 b1 b0 H1 H0). rewrite (Wm x j W). apply Zb; [exact Px|]. intros w Hw W'. exact (proj1 (proj1 (N1 w Hw x j Px) W) W').
        * eapply Vb; eauto.
      + intros x j Px N. rewrite Zb; [|exact Px|intros w Hw; apply N; right; exact Hw]. apply Fm. apply N. left. reflexivity.
  Qed.

  Lemma pairs_in {A} (R : A -> A -> Prop) (Rs : forall x y, R x y -> R y x) (ls : list (list A)) : ForallOrdPairs R (concat ls) ->
    forall p q c d v w, p <> q -> nth_error ls p = Some c -> nth_error ls q = Some d -> In v c -> In w d -> R v w.
  Proof.
    assert (G: forall l1 l2 : list A, ForallOrdPairs R (l1 ++ l2) -> ForallOrdPairs R l1 /\ ForallOrdPairs R l2 /\ forall v w, In v l1 -> In w l2 -> R v w).
    { induction l1 as [|x l1 IH]; simpl; intros l2 H; [split; [constructor|]; split; [exact H|intros v w []]|].
      inversion H as [|? ? H1 H2]; subst. destruct (IH _ H2) as (K1 & K2 & K3). apply Forall_app in H1 as [H1 H3].
      split; [constructor; assumption|]. split; [exact K2|]. intros v w [<-|Hv] Hw; [rewrite Forall_forall in H3; auto|auto]. }
    induction ls as [|l ls IH]; intros H p q c d v w N Hp Hq Hv Hw; [destruct p; discriminate|].
    simpl in H. destruct (G _ _ H) as (_ & H2 & H3). destruct p as [|p], q as [|q]; simpl in *; try congruence.
    - injection Hp as <-. apply H3; [exact Hv|]. apply in_concat. exists d. split; [eapply nth_error_In; eauto|exact Hw].
    - injection Hq as <-. apply Rs. apply H3; [exact Hw|]. apply in_concat. exists c. split; [eapply nth_error_In; eauto|exact Hv].
    - apply (IH H2 p q c d v w); auto.
  Qed.
  Lemma pairs_sub {A} (R : A -> A -> Prop) (ls : list (list A)) c : ForallOrdPairs R (concat ls) -> In c ls -> ForallOrdPairs R c.
  Proof.
    assert (G: forall l1 l2 : list A, ForallOrdPairs R (l1 ++ l2) -> ForallOrdPairs R l1 /\ ForallOrdPairs R l2).
    { induction l1 as [|x l1 IH]; simpl; intros l2 H; [split; [constructor|exact H]|]. inversion H as [|? ? H1 H2]; subst.
      destruct (IH _ H2). apply Forall_app in H1 as [H1 _]. split; [constructor|]; assumption. }
    induction ls as [|l ls IH]; simpl; intros H Hc; [elim Hc|]. destruct (G _ _ H) as (H1 & H2). destruct Hc as [<-|Hc]; auto.
  Qed.
  Lemma pairs_perm {A} (R : A -> A -> Prop) (Rs : forall x y, R x y -> R y x) l l' : Permutation l l' -> ForallOrdPairs R l -> ForallOrdPairs R l'.
  Proof.
    induction 1 as [|x l l' H IH|x y l|l l' l'' H1 IH1 H2 IH2]; intros K; auto.
    - inversion K as [|? ? K1 K2]; subst. constructor; [|auto]. rewrite Forall_forall in *. intros y Hy. apply K1. eapply Permutation_in; [apply Permutation_sym; exact H|exact Hy].
    - inversion K as [|? ? K1 K2]; subst. inversion K2 as [|? ? K3 K4]; subst. inversion K1; subst. constructor; [|constructor]; auto.
  Qed.
  (** a distribution of the values is a distribution of the iterations *)
  Lemma chunks_lift (ls : list (list seq)) : forall its : list (seq * trace), map fst its = concat ls ->
    exists cks, concat cks = its /\ map (map fst) cks = ls.
  Proof.
    induction ls as [|l ls IH]; simpl; intros its E.
    - exists []. destruct its; [auto|discriminate].
    - apply map_eq_app in E. destruct E as (l1 & l2 & -> & E1 & E2). destruct (IH l2 E2) as (cks & <- & <-). exists (l1 :: cks). simpl. rewrite E1. auto.
  Qed.

  (** the slots of a team *)
  Lemma team_slots a0 cks ws : map (map fst) cks = map snd ws ->
    (forall it, In it (concat cks) -> exists b, f it a0 b) -> (forall it, In it (concat cks) -> private byname (snd it)) ->
    ForallOrdPairs nconf (concat cks) ->
    exists sl, map s_t sl = start ws /\ Forall (ok I priv) sl /\ map s_T sl = map (fun c : list (seq * trace) => concat (map snd c)) cks /\
      Forall (fun s => s_d s = [] /\ s_g s = a0) sl /\
      Forall2 (fun c gf => forall it b0 x j, In it c -> f it a0 b0 -> priv x = false -> written (snd it) x j -> gf x j = b0 x j) cks (map s_gf sl).
  Proof.
    revert ws. induction cks as [|c cks IH]; intros ws E EX PR NC.
    - destruct ws; [|discriminate]. exists []. repeat (split; [constructor|]). constructor.
    - destruct ws as [|[ow vs] ws]; [discriminate|]. simpl in E. injection E as E1 E2.
      assert (NC1: ForallOrdPairs nconf c) by (eapply (pairs_sub nconf (c :: cks)); [exact NC|left; reflexivity]).
      assert (NC2: ForallOrdPairs nconf (concat cks)).
      { clear - NC. simpl in NC. induction c; [exact NC|]. inversion NC; subst. auto. }
      destruct (IH ws E2) as (sl & K1 & K2 & K3 & K4 & K5); [intros; apply EX; apply in_or_app; auto|intros; apply PR; apply in_or_app; auto|exact NC2|].
      destruct (items_value a0 c) with (a := view priv a0 ow) as (b & Lb & Vb & _).
      + intros; apply EX; apply in_or_app; auto.
      + intros; apply PR; apply in_or_app; auto.
      + exact NC1.
      + intros it x j Hit X. unfold view. destruct (priv x) eqn:P; [|reflexivity]. elim (PR it ltac:(apply in_or_app; auto) x j P X).
      + destruct (chunk_solo I priv c _ b a0 ow (MStop ONorm) Lb ltac:(reflexivity) ltac:(auto)) as (n & g' & t' & S1 & F1 & V1).
        exists (Slot (Thr ow (MStop ONorm) vs) [] (concat (map snd c)) n a0 (concat (map snd c)) g' t' :: sl).
        split; [simpl; rewrite K1; reflexivity|]. split; [constructor; [|exact K2]|]; [|split; [simpl; rewrite K3; reflexivity|]; split; [constructor; auto|]].
        * split; [reflexivity|]. cbn [s_n s_g s_t s_r s_gf s_tf]. rewrite <- E1. auto.
        * constructor; [|exact K5]. intros it b0 x j Hit H0 Px W. rewrite <- (Vb it b0 x j Hit H0 Px W), <- V1. unfold view. rewrite Px. reflexivity.
  Qed.
  Lemma written_items (c : list (seq * trace)) x j : written (concat (map snd c)) x j <-> exists it, In it c /\ written (snd it) x j.
  Proof.
    induction c as [|it c IH]; simpl; [split; [intros W; elim (written_nil _ _ W)|intros (it & [] & _)]|].
    rewrite written_app, IH. split; [intros [W|(w & Hw & W)]; eauto|intros (w & [<-|Hw] & W); eauto].
  Qed.
  Lemma touched_items (c : list (seq * trace)) x j : touched (concat (map snd c)) x j -> exists it, In it c /\ touched (snd it) x j.
  Proof.
    induction c as [|it c IH]; simpl; [intros (w & e & [])|]. intros H. apply touched_app in H as [H|H]; [eauto|]. destruct (IH H) as (w & Hw & K). eauto.
  Qed.
  Lemma written_any (c : list (seq * trace)) x j : (exists it, In it c /\ written (snd it) x j) \/ forall it, In it c -> ~ written (snd it) x j.
  Proof.
    induction c as [|it c [(w & Hw & W)|N]]; [right; intros it []|left; exists w; simpl; auto|].
    destruct (written_dec (snd it) x j) as [W|N']; [left; exists it; simpl; auto|right]. intros w [<-|Hw]; auto.
  Qed.

  Theorem team a0 its ws : Permutation (map fst its) (concat (map snd ws)) ->
    (forall it, In it its -> exists b, f it a0 b) -> (forall it, In it its -> private byname (snd it)) -> ForallOrdPairs nconf its ->
    exists b N, iterL f its a0 b /\ forall n d, psteps I priv n (a0, start ws) d ->
      (n <= N)%nat /\ (n = N <-> Forall finished (snd d)) /\
      (forall t, In t (snd d) -> finished t \/ exists ev g' t', fire I priv (fst d) t = Some (ev, g', t')) /\
      (forall p q t t2 ev ev2 g1 g2 t1' t2' x j, p <> q -> nth_error (snd d) p = Some t -> nth_error (snd d) q = Some t2 ->
         fire I priv (fst d) t = Some (ev, g1, t1') -> fire I priv (fst d) t2 = Some (ev2, g2, t2') ->
         priv x = false -> written ev x j -> touched ev2 x j -> False) /\
      (Forall finished (snd d) -> forall x j, priv x = false -> fst d x j = b x j).
  Proof.
    intros PM EX PR NC.
    assert (PM': exists its', map fst its' = concat (map snd ws) /\ Permutation its its').
    { apply Permutation_sym in PM. destruct (Permutation_map_inv fst its PM) as (l & E & P). exists l. split; [symmetry; exact E|exact P]. }
    destruct PM' as (its' & E' & PI). destruct (chunks_lift _ _ E') as (cks & EC & EW). subst its'.
    assert (EX': forall it, In it (concat cks) -> exists b, f it a0 b). { intros it H. apply EX. eapply Permutation_in; [apply Permutation_sym; exact PI|exact H]. }
    assert (PR': forall it, In it (concat cks) -> private byname (snd it)). { intros it H. apply PR. eapply Permutation_in; [apply Permutation_sym; exact PI|exact H]. }
    assert (NC': ForallOrdPairs nconf (concat cks)) by (eapply pairs_perm; [exact nconf_sym|exact PI|exact NC]).
    destruct (items_value a0 its EX PR NC a0) as (b & Lb & Vb & Zb); [auto|].
    destruct (team_slots a0 cks ws EW EX' PR' NC') as (sl & K1 & K2 & K3 & K4 & K5).
    exists b, (list_sum (map s_n sl)). split; [exact Lb|]. intros n d ST.
    assert (V0: inv I priv a0 a0 sl).
    { split; [exact K2|]. split; [|split].
      - intros p q s u x j Npq Hp Hq Px W T.
        assert (Cp: exists c, nth_error cks p = Some c /\ s_T s = concat (map snd c)).
        { assert (H: nth_error (map s_T sl) p = Some (s_T s)) by (rewrite nth_error_map, Hp; reflexivity). rewrite K3, nth_error_map in H.
          destruct (nth_error cks p) as [c|] in H |- *; [|discriminate]. injection H as H. eauto. }
        assert (Cq: exists c, nth_error cks q = Some c /\ s_T u = concat (map snd c)).
        { assert (H: nth_error (map s_T sl) q = Some (s_T u)) by (rewrite nth_error_map, Hq; reflexivity). rewrite K3, nth_error_map in H.
          destruct (nth_error cks q) as [c|] in H |- *; [|discriminate]. injection H as H. eauto. }
        destruct Cp as (c & Hc & Ec). destruct Cq as (e & He & Ee). rewrite Ee in W. rewrite Ec in T.
        apply written_items in W as (v & Hv & W). apply touched_items in T as (w & Hw & T).
        pose proof (pairs_in nconf nconf_sym cks NC' q p e c v w ltac:(congruence) He Hc Hv Hw) as Q. destruct (Q x j Px) as [Q1 _].
        destruct (touched_split _ _ _ T) as [T'|T']; [exact (proj1 (Q1 W) T')|exact (proj2 (Q1 W) T')].
      - intros p s x j Hp _ _. rewrite Forall_forall in K4. destruct (K4 s (nth_error_In _ _ Hp)) as [_ ->]. reflexivity.
      - auto. }
    rewrite <- K1 in ST. destruct (steps_inv I priv a0 sl n a0 V0 d ST) as (s1 & E1 & V1 & N1 & T1 & F1).
    assert (FIN: Forall finished (snd d) -> forall s, In s s1 -> s_r s = [] /\ s_g s = s_gf s /\ s_n s = O).
    { intros F s Hs. rewrite E1 in F. rewrite Forall_forall in F. specialize (F (s_t s) (in_map s_t s1 s Hs)).
      destruct V1 as (OK & _). rewrite Forall_forall in OK. destruct (OK s Hs) as (_ & SO & _).
      inversion SO as [? ? A1 A2 A3 A4 A5 A6|ev1 ? ? gv1 t1 n1 TT1 ? ? Fv SO1 A1 A2 A3 A4 A5 A6]; subst; [auto|].
      exfalso. destruct F as [[FI|FI] FI2]; unfold fire in Fv; rewrite FI, FI2 in Fv; discriminate. }
    split; [lia|]. split; [|split; [|split]].
    - split.
      + intros Q. assert (Z0: list_sum (map s_n s1) = O) by lia. rewrite E1. apply Forall_forall. intros t Ht. apply in_map_iff in Ht as (s & <- & Hs).
        assert (s_n s = O) as Ns. { clear - Z0 Hs. induction s1 as [|w s1 IH]; [elim Hs|]. simpl in Z0. destruct Hs as [<-|Hs]; [lia|]. apply IH; [lia|exact Hs]. }
        destruct V1 as (OK & _). rewrite Forall_forall in OK. destruct (OK s Hs) as (_ & SO & FI). rewrite Ns in SO. inversion SO; subst. congruence.
      + intros F. enough (list_sum (map s_n s1) = O) by lia. pose proof (FIN F) as Q. clear - Q. induction s1 as [|w s1 IH]; [reflexivity|]. simpl.
        rewrite IH; [|intros s Hs; apply Q; right; exact Hs]. destruct (Q w ltac:(left; reflexivity)) as (_ & _ & ->). reflexivity.
    - intros t Ht. rewrite E1 in Ht. apply in_map_iff in Ht as (s & <- & Hs). eapply slot_progress; eauto.
    - intros p q t t2 ev ev2 g1 g2 t1' t2' x j Npq Hp Hq Fp Fq Px W T. rewrite E1 in Hp, Hq. rewrite nth_error_map in Hp, Hq.
      destruct (nth_error s1 p) as [s|] eqn:Es; [|discriminate]. destruct (nth_error s1 q) as [u|] eqn:Eu; [|discriminate].
      injection Hp as <-. injection Hq as <-. eapply (slot_race I priv a0 (fst d) s1 p q s u); eauto.
    - intros F x j Px. destruct V1 as (OK & AP & SH & ZR).
      destruct (written_any (concat cks) x j) as [(it & Hit & W)|NW].
      + apply in_concat in Hit as Hc. destruct Hc as (c & Hc & Hi). destruct (In_nth_error _ _ Hc) as (p & Hp).
        assert (G: forall q c', nth_error cks q = Some c' -> exists s, nth_error s1 q = Some s /\ s_T s = concat (map snd c') /\
           (forall it b0 x j, In it c' -> f it a0 b0 -> priv x = false -> written (snd it) x j -> s_gf s x j = b0 x j)).
        { intros q c' Hq. assert (H1: nth_error (map s_T s1) q = Some (concat (map snd c'))) by (rewrite T1, K3, nth_error_map, Hq; reflexivity).
          rewrite nth_error_map in H1. destruct (nth_error s1 q) as [s|] eqn:Es; [|discriminate]. injection H1 as H1. exists s. split; [reflexivity|]. split; [exact H1|].
          assert (H2: nth_error (map s_gf s1) q = Some (s_gf s)) by (rewrite nth_error_map, Es; reflexivity). rewrite F1 in H2.
          clear - K5 Hq H2. revert q Hq H2. induction K5; intros [|q] Hq H2; simpl in *; try discriminate; [injection Hq as <-; injection H2 as <-; assumption|eauto]. }
        destruct (G p c Hp) as (s & Hs & Ts & Gs). destruct (EX' it Hit) as (b0 & H0).
        assert (Hin: In it its) by (eapply Permutation_in; [apply Permutation_sym; exact PI|exact Hit]).
        rewrite (Vb it b0 x j Hin H0 Px W). rewrite <- (Gs it b0 x j Hi H0 Px W).
        destruct (FIN F s (nth_error_In _ _ Hs)) as (_ & <- & _). apply (SH p s x j Hs Px).
        intros q u Nq Hq Wq. refine (AP q p u s x j Nq Hq Hs Px _ _).
        * rewrite Ts. apply written_items. eauto.
        * apply touched_written. rewrite Forall_forall in OK. destruct (OK u (nth_error_In _ _ Hq)) as (<- & _). apply written_app. auto.
      + rewrite Zb; [|exact Px|intros it Hit; apply NW; eapply Permutation_in; [exact PI|exact Hit]]. apply ZR; [exact Px|].
        intros s Hs Ws. destruct (In_nth_error _ _ Hs) as (p & Hp).
        assert (H1: nth_error (map s_T s1) p = Some (s_T s)) by (rewrite nth_error_map, Hp; reflexivity). rewrite T1, K3, nth_error_map in H1.
        destruct (nth_error cks p) as [c|] eqn:Ec; [|discriminate]. injection H1 as H1.
        assert (Wt: written (s_T s) x j). { rewrite Forall_forall in OK. destruct (OK s Hs) as (<- & _). apply written_app. auto. }
        rewrite <- H1 in Wt. apply written_items in Wt as (it & Hit & W). apply (NW it); [|exact W]. apply in_concat. exists c. split; [eapply nth_error_In; eauto|exact Hit].
  Qed.
End Iters.

(** Proofs about Cuda.v: coverage of the iterations by the threads, nests of maps as
    iterations over tuples, and the threads of a kernel as a team. *)
From Coq Require Import Permutation.
From Verif Require Import Sym SymFacts SymFuns Lin IR IRFacts IRRefine PassCFG LoopAnaProofs LoopTile LoopIter Trace Reorder DepAna DepProofs For2MapProofs Par ParProofs Cuda.

Lemma F2_length {X Y} (R : X -> Y -> Prop) l m : Forall2 R l m -> List.length l = List.length m.
Proof. induction 1; simpl; congruence. Qed.
(* ---------------------------------------------------------------- coverage *)
Lemma upto_S n : 0 <= n -> upto (n + 1) = upto n ++ [n].
Proof.
  intros H. unfold upto. rewrite Z2Nat.inj_add by lia. change (Z.to_nat 1) with 1%nat. rewrite Nat.add_1_r, seq_S, map_app. cbn. rewrite Z2Nat.id by lia. reflexivity.
Qed.
Lemma upto_0 n : n <= 0 -> upto n = [].
Proof. intros H. unfold upto. replace (Z.to_nat n) with O by lia. reflexivity. Qed.
Lemma in_upto n v : In v (upto n) <-> 0 <= v < n.
Proof.
  unfold upto. rewrite in_map_iff. split.
  - intros (k & <- & H). apply in_seq in H. lia.
  - intros H. exists (Z.to_nat v). split; [lia|]. apply in_seq. lia.
Qed.
Lemma upto_nodup n : NoDup (upto n).
Proof. unfold upto. apply FinFun.Injective_map_NoDup; [intros a b; apply Nat2Z.inj|apply seq_NoDup]. Qed.
Lemma upto_app n m : 0 <= n -> 0 <= m -> upto (n + m) = upto n ++ map (fun t => t + n) (upto m).
Proof.
  intros Hn Hm. revert m Hm. apply natlike_ind.
  - rewrite Z.add_0_r, (upto_0 0) by lia. rewrite app_nil_r. reflexivity.
  - intros m Hm IH. unfold Z.succ. rewrite Z.add_assoc, upto_S, IH, upto_S, map_app, app_assoc by lia. cbn. do 2 f_equal. lia.
Qed.
Lemma blocks_upto bs nb : 0 <= bs -> 0 <= nb -> flat_map (fun b => map (fun t => t + b * bs) (upto bs)) (upto nb) = upto (bs * nb).
Proof.
  intros Hb. revert nb. apply natlike_ind.
  - rewrite Z.mul_0_r, (upto_0 0) by lia. reflexivity.
  - intros nb Hn IH. unfold Z.succ. rewrite upto_S, flat_map_app, IH by lia. replace (bs * (nb + 1)) with (bs * nb + bs) by ring.
    rewrite upto_app by nia. f_equal. cbn. rewrite app_nil_r. apply map_ext. intros t. ring.
Qed.
Lemma swrap_id t : 0 <= t < 2 ^ 31 -> swrap 32 t = t.
Proof.
  intros H. unfold swrap. change (32 - 1) with 31. change (2 ^ 32) with (2 ^ 31 + 2 ^ 31). rewrite Z.mod_small by lia. lia.
Qed.
Lemma coords_upto bs nb : 0 <= bs -> 0 <= nb -> bs * nb <= 2 ^ 31 -> coords bs nb = upto (bs * nb).
Proof.
  intros Hb Hn HO. rewrite <- blocks_upto by assumption. unfold coords. rewrite !flat_map_concat_map. f_equal. apply map_ext_in. intros b Hb'. apply in_upto in Hb'.
  apply map_ext_in. intros t Ht. apply in_upto in Ht. apply swrap_id. nia.
Qed.
(** enough blocks for every iteration *)
Lemma num_blocks_enough closed n bs : 1 <= bs -> 1 <= num_blocks closed n bs /\ n <= bs * num_blocks closed n bs.
Proof.
  intros Hb. unfold num_blocks. split; [lia|]. set (q := if closed then _ else _).
  destruct (Z.le_gt_cases n 0) as [Hn|Hn]; [nia|].
  assert (n <= bs * q); [|nia]. unfold q. destruct closed.
  - unfold ceil_div. pose proof (Z.mul_div_le (- n) bs ltac:(lia)). lia.
  - rewrite Z.quot_div_nonneg by lia. pose proof (Z.mod_pos_bound (n + (bs - 1)) bs ltac:(lia)). pose proof (Z.div_mod (n + (bs - 1)) bs ltac:(lia)). lia.
Qed.
Lemma filter_upto n m : n <= m -> filter (fun v => v <? n) (upto m) = upto n.
Proof.
  intros H. destruct (Z.le_gt_cases n 0) as [Hn|Hn].
  - rewrite (upto_0 n) by lia. assert (G: forall l, (forall v, In v l -> 0 <= v) -> filter (fun v => v <? n) l = []).
    { induction l as [|v l IH]; intros K; [reflexivity|]. simpl. pose proof (K v ltac:(left; reflexivity)). destruct (Z.ltb_spec v n); [lia|]. apply IH. intros; apply K; right; assumption. }
    apply G. intros v Hv. apply in_upto in Hv. lia.
  - replace m with (n + (m - n)) by lia. rewrite upto_app by lia. rewrite filter_app.
    replace (filter (fun v => v <? n) (upto n)) with (upto n).
    + replace (filter _ _) with (@nil Z); [apply app_nil_r|]. symmetry. assert (G: forall l, (forall v, In v l -> n <= v) -> filter (fun v => v <? n) l = []).
      { induction l as [|v l IH]; intros K; [reflexivity|]. simpl. pose proof (K v ltac:(left; reflexivity)). destruct (Z.ltb_spec v n); [lia|]. apply IH. intros; apply K; right; assumption. }
      apply G. intros v Hv. apply in_map_iff in Hv as (t & <- & Ht). apply in_upto in Ht. lia.
    + symmetry. assert (G: forall l, (forall v, In v l -> v < n) -> filter (fun v => v <? n) l = l).
      { induction l as [|v l IH]; intros K; [reflexivity|]. simpl. pose proof (K v ltac:(left; reflexivity)). destruct (Z.ltb_spec v n); [|lia]. f_equal. apply IH. intros; apply K; right; assumption. }
      apply G. intros v Hv. apply in_upto in Hv. lia.
Qed.
Lemma in_prod ls : forall t, In t (prod ls) <-> Forall2 (fun v r => In v r) t ls.
Proof.
  induction ls as [|r ls IH]; intros t; cbn [prod].
  - split; [intros [<-|[]]; constructor|intros H; inversion H; left; reflexivity].
  - rewrite in_flat_map. split.
    + intros (v & Hv & Ht). apply in_map_iff in Ht as (t' & <- & Ht). constructor; [exact Hv|]. apply IH. exact Ht.
    + intros H. inversion H as [|v r' t' ls' Hv Ht]; subst. exists v. split; [exact Hv|]. apply in_map. apply IH. exact Ht.
Qed.
Lemma prod_nodup ls : Forall (@NoDup Z) ls -> NoDup (prod ls).
Proof.
  induction 1 as [|r ls Hr H IH]; cbn [prod]; [constructor; [intros []|constructor]|].
  induction Hr as [|v r Nv Hr IHr]; cbn [flat_map]; [constructor|]. 
  assert (G: forall (l1 l2 : list (list Z)), NoDup l1 -> NoDup l2 -> (forall x, In x l1 -> ~ In x l2) -> NoDup (l1 ++ l2)).
  { induction l1 as [|x l1 IHl]; intros l2 H1 H2 K; [exact H2|]. inversion H1; subst. simpl. constructor.
    - intros Hx. apply in_app_iff in Hx as [Hx|Hx]; [contradiction|]. exact (K x ltac:(left; reflexivity) Hx).
    - apply IHl; auto. intros y Hy. apply K. right. exact Hy. }
  apply G; [apply FinFun.Injective_map_NoDup; [intros a b E; injection E; auto|exact IH]|exact IHr|].
  intros x Hx Hy. apply in_map_iff in Hx as (t & <- & _). apply in_flat_map in Hy as (w & Hw & Hy). apply in_map_iff in Hy as (t' & E & _). injection E as -> _. contradiction.
Qed.

(* ---------------------------------------------------------------- nests *)
(** [l]: the variables assigned to the values, one after the other *)
Fixpoint setv (xs : list string) (t : list Z) (a : store) : store :=
  match xs, t with x :: xs', v :: t' => setv xs' t' (wr a x [] v) | _, _ => a end.
Lemma setv_other xs : forall t a y j, ~ (In y xs /\ j = []) -> setv xs t a y j = a y j.
Proof.
  induction xs as [|x xs IH]; intros [|v t] a y j H; try reflexivity. cbn [setv]. rewrite IH by (intros (Hy & E); apply H; simpl; auto).
  apply Trace.wr_other. intros (-> & <-). apply H. simpl. auto.
Qed.
Lemma setv_same xs : forall t a b, List.length t = List.length xs -> (forall y j, ~ (In y xs /\ j = []) -> a y j = b y j) ->
  forall y j, setv xs t a y j = setv xs t b y j.
Proof.
  induction xs as [|x xs IH]; intros [|v t] a b L H y j; cbn [setv]; try discriminate.
  - apply H. intros ([] & _).
  - apply IH; [simpl in L; lia|]. intros z k N. unfold wr. destruct (String.eqb_spec x z) as [->|Nx]; cbn [andb].
    + destruct (idx_eqb [] k) eqn:K; [reflexivity|]. apply H. intros (_ & ->). discriminate.
    + apply H. intros ([E|E] & ->); [congruence|]. apply N. auto.
Qed.
Lemma setv_ext xs t a b : (forall y j, a y j = b y j) -> forall y j, setv xs t a y j = setv xs t b y j.
Proof.
  revert t a b. induction xs as [|x xs IH]; intros [|v t] a b H y j; cbn [setv]; auto. apply IH. intros z k. unfold wr. destruct (_ && _); auto.
Qed.

Record level := Lv { l_i : string; l_c : cond; l_u : expr }.
(** maps around [body], outermost first *)
Fixpoint nest (ls : list level) (body : seq) : seq :=
  match ls with [] => body | l :: ls' => SCons (NLoop KMap (l_i l) (EInt 0) (l_c l) (l_u l) (nest ls' body)) [] SNil end.
Lemma nest_writes ls body : swrites (nest ls body) = map l_i ls ++ swrites body.
Proof. induction ls as [|l ls IH]; [reflexivity|]. cbn. rewrite !app_nil_r, IH. reflexivity. Qed.

Section Nest.
  Variables (I : nat -> list Z -> option Z) (body : seq).
  (** one iteration: the variables set to a tuple, then the body *)
  Definition tup (xs : list string) (t : list Z) : rel := fun a b => exists o, (o = ONorm \/ o = OCont) /\ runs I body (setv xs t a) o b.
  (** the loop of level [l], started in [a], has [n] iterations *)
  Definition counts (a : store) (l : level) (n : Z) : Prop :=
    forall v, 0 <= v -> cev (upd (env_of a) (l_i l) v) (l_c l) = Some (v <? n).
  Definition off (xs : list string) (a b : store) : Prop := forall y j, ~ (In y xs /\ j = []) -> a y j = b y j.
  Lemma counts_same a b l n : (forall x, In x (catoms (l_c l)) -> x <> l_i l -> a x [] = b x []) -> counts a l n -> counts b l n.
  Proof.
    intros H C v Hv. rewrite <- (C v Hv). apply cev_agree. intros x Hx. unfold upd, env_of. destruct (String.eqb_spec (l_i l) x) as [E|N]; [reflexivity|]. symmetry. apply H; auto.
  Qed.
  Lemma counts_trip a l n : stride (l_i l) (l_u l) = Some 1 -> counts a l n -> trip (env_of a) (l_i l) (l_c l) (l_u l) 0 (upto n) (Z.max 0 n).
  Proof.
    intros SU C.
    assert (G: forall k v, 0 <= v -> n = v + Z.of_nat k -> trip (env_of a) (l_i l) (l_c l) (l_u l) v (map (fun t => t + v) (upto (Z.of_nat k))) n).
    { induction k as [|k IH]; intros v Hv E.
      - replace (upto _) with (@nil Z) by reflexivity. replace v with n at 1 by lia. apply T_end. rewrite C by lia. rewrite Z.ltb_irrefl. reflexivity.
      - rewrite Nat2Z.inj_succ. unfold Z.succ. rewrite Z.add_comm. rewrite upto_app by lia. change (upto 1) with [0]. cbn [map app].
        eapply T_next; [cbn [Z.add]; rewrite C by lia; destruct (Z.ltb_spec v n); [reflexivity|lia]| |].
        + apply (stride_sound _ _ 1 _ SU).
        + unfold upd. rewrite String.eqb_refl. cbn [Z.add]. specialize (IH (v + 1) ltac:(lia) ltac:(lia)). rewrite map_map.
          erewrite map_ext; [exact IH|]. intros t. cbn. lia. }
    destruct (Z.le_gt_cases n 0) as [Hn|Hn].
    - rewrite upto_0, Z.max_l by lia. apply T_end. rewrite C by lia. destruct (Z.ltb_spec 0 n); [lia|reflexivity].
    - rewrite Z.max_r by lia. specialize (G (Z.to_nat n) 0 ltac:(lia) ltac:(lia)). rewrite Z2Nat.id in G by lia.
      erewrite <- (map_id (upto n)), map_ext; [exact G|]. intros t. cbn. lia.
  Qed.
  Lemma iter_app {B} (f : B -> rel) l1 : forall l2 a b, iterL f (l1 ++ l2) a b -> exists m, iterL f l1 a m /\ iterL f l2 m b.
  Proof.
    induction l1 as [|x l1 IH]; intros l2 a b H; [exists a; split; [apply eqx_refl|exact H]|].
    destruct H as (m & H1 & H2). destruct (IH _ _ _ H2) as (m' & H3 & H4). exists m'. split; [exists m; auto|exact H4].
  Qed.
  Lemma runs_steq s a o b a' : runs I s a o b -> (forall x j, a x j = a' x j) -> exists b', runs I s a' o b' /\ forall x j, b x j = b' x j.
  Proof.
    intros R E. destruct (runs_frame I s a o b none a' R) as (b' & R' & E'); [apply steq_intro; exact E|apply avoids_none|].
    exists b'. split; [exact R'|]. intros x j. apply steq_at. exact E'.
  Qed.
  (** a block of tuples with the same first component *)
  Lemma inner_shift x xs v P : ~ In x xs -> ~ In x (swrites body) -> (forall t, In t P -> List.length t = List.length xs) ->
    forall p p' q, iterL (tup (x :: xs)) (map (cons v) P) p p' -> off (x :: xs) p q -> q x [] = v ->
    exists q', iterL (tup xs) P q q' /\ off (x :: xs) p' q'.
  Proof.
    intros Nx Nb. induction P as [|t P IH]; intros LP p p' q L O Q.
    - exists q. split; [apply eqx_refl|]. intros y j N. rewrite <- (O y j N). symmetry. apply steq_at. exact L.
    - destruct L as (m & (o & Ho & R) & L). cbn [setv] in R.
      assert (Lt: List.length t = List.length xs) by (apply LP; left; reflexivity).
      destruct (runs_steq body _ _ _ (setv xs t q) R) as (m' & R' & E).
      { apply setv_same; [exact Lt|]. intros y j N. unfold wr. destruct (String.eqb_spec x y) as [->|Ny]; cbn [andb].
        - destruct (idx_eqb [] j) eqn:J; [apply idx_eqb_eq in J; subst j; symmetry; exact Q|]. apply O. intros (_ & ->). discriminate.
        - apply O. intros ([H|H] & ->); [congruence|]. apply N. auto. }
      destruct (IH ltac:(intros; apply LP; right; assumption) m p' m' L) as (q' & L' & O').
      + intros y j _. apply E.
      + rewrite (runs_writes I body _ _ _ x [] R' Nb), setv_other by (intros (H & _); contradiction). exact Q.
      + exists q'. split; [exists m'; split; [exists o; auto|exact L']|exact O'].
  Qed.
  Definition fine (xs : list string) (l : level) : Prop := stride (l_i l) (l_u l) = Some 1 /\
    (forall x, In x (catoms (l_c l)) -> ~ In x (swrites body) /\ (In x xs -> x = l_i l)).
  Lemma stride_atoms i u z x : stride i u = Some z -> In x (atoms u) -> x = i.
  Proof.
    unfold stride. destruct u as [| | | |l| | | | | | | | | |]; try discriminate. destruct l as [|a [|b [|]]]; try discriminate.
    destruct a; try discriminate; destruct b; try discriminate; destruct (String.eqb_spec x0 i) as [->|]; try discriminate; intros _; simpl; intuition congruence.
  Qed.
  Lemma nest_run ls : NoDup (map l_i ls) -> (forall l, In l ls -> ~ In (l_i l) (swrites body)) -> Forall (fine (map l_i ls)) ls ->
    forall Ns a b, Forall2 (counts a) ls Ns -> iterL (tup (map l_i ls)) (prod (map upto Ns)) a b ->
    exists o b', (o = ONorm \/ (ls = [] /\ o = OCont)) /\ runs I (nest ls body) a o b' /\ off (map l_i ls) b b'.
  Proof.
    induction ls as [|l ls IH]; intros ND NW F Ns a b C L.
    - inversion C; subst. destruct L as (m & (o & Ho & R) & E). cbn [setv map] in R. exists o, m. split; [tauto|]. split; [exact R|]. intros y j _. symmetry. apply steq_at. exact E.
    - inversion C as [|? n ? Ns' Cn C']; subst. cbn [map] in *. inversion ND as [|? ? Nl ND']; subst. inversion F as [|? ? Fl F']; subst. destruct Fl as (SU & FA).
      set (x := l_i l) in *. set (xs := map l_i ls) in *.
      assert (Nb: ~ In x (swrites body)) by (apply NW; left; reflexivity).
      assert (IH': forall q q2, Forall2 (counts q) ls Ns' -> iterL (tup xs) (prod (map upto Ns')) q q2 -> exists o b', (o = ONorm \/ o = OCont) /\ runs I (nest ls body) q o b' /\ off xs q2 b').
      { intros q q2 Q1 Q2. enough (exists o b', (o = ONorm \/ (ls = [] /\ o = OCont)) /\ runs I (nest ls body) q o b' /\ off xs q2 b') as (o & b' & H1 & H2) by (exists o, b'; tauto). eapply IH; eauto. - intros w Hw; apply NW; right; exact Hw.
        - eapply Forall_impl; [|exact F']. intros w (S1 & S2). split; [exact S1|]. intros y Hy. destruct (S2 y Hy) as (S3 & S4). split; [exact S3|]. intros Hi. apply S4. right. exact Hi. }
      clear IH.
      assert (ST: stable x (l_c l) (l_u l) (nest ls body)).
      { assert (W: forall y, In y (swrites (nest ls body)) -> In y xs \/ In y (swrites body)) by (intros y; rewrite nest_writes; apply in_app_iff).
        split; [intros H; destruct (W x H); contradiction|]. intros y Hy H. apply in_app_iff in Hy as [Hy|Hy].
        - destruct (FA y Hy) as (F1 & F2). destruct (W y H) as [K|K]; [|contradiction]. apply Nl. change (In x xs). rewrite <- (F2 ltac:(right; exact K)). exact K.
        - apply (stride_atoms _ _ _ y SU) in Hy. subst y. destruct (W _ H); contradiction. }
      assert (LP: forall t, In t (prod (map upto Ns')) -> List.length t = List.length xs).
      { intros t Ht. apply in_prod in Ht. apply F2_length in Ht. rewrite Ht, map_length. unfold xs. rewrite map_length. symmetry. eapply F2_length. exact C'. }
      assert (KEEP: forall q q', (forall y, In y (swrites (nest ls body)) \/ y = x \/ q y [] = q' y []) -> Forall2 (counts q) ls Ns' -> Forall2 (counts q') ls Ns').
      { intros q q' K H. clear - K H F' Nl NW. fold xs in Nl.
        assert (F2: Forall (fun w => forall y, In y (catoms (l_c w)) -> y <> l_i w -> ~ In y (swrites body) /\ ~ In y xs /\ y <> x) ls).
        { eapply Forall_impl; [|exact F']. intros w (_ & S2) y Hy Ny. destruct (S2 y Hy) as (S3 & S4). split; [exact S3|]. split; [intros Q; apply Ny, S4; right; exact Q|].
          intros Q. apply Ny, S4. left. symmetry. exact Q. }
        rewrite nest_writes in K.
        assert (G: forall ks, Forall (fun w => forall y, In y (catoms (l_c w)) -> y <> l_i w -> ~ In y (swrites body) /\ ~ In y xs /\ y <> x) ks -> forall ns, Forall2 (counts q) ks ns -> Forall2 (counts q') ks ns).
        { induction 1 as [|w ks' W1 W2 IHw]; intros ns Q; inversion Q as [|? n1 ? ns1 Q1 Q2]; subst; constructor; auto. eapply counts_same; [|exact Q1]. intros y Hy Ny.
          destruct (W1 y Hy Ny) as (A1 & A2 & A3). destruct (K y) as [B|[B|B]]; [|contradiction|exact B]. apply in_app_iff in B as [B|B]; contradiction. }
        apply G; assumption. }
      (* the outer loop *)
      assert (OUT: forall vs p b0 q, iterL (fun v : Z => fun a1 b1 => iterL (tup (x :: xs)) (map (cons v) (prod (map upto Ns'))) a1 b1) vs p b0 ->
        off (x :: xs) p q -> Forall2 (counts q) ls Ns' -> exists b2, iterL (raw I x (nest ls body)) vs q b2 /\ off (x :: xs) b0 b2).
      { induction vs as [|v vs IHv]; intros p b0 q L0 O0 C0.
        - exists q. split; [apply eqx_refl|]. intros y j N. rewrite <- (O0 y j N). symmetry. apply steq_at. exact L0.
        - destruct L0 as (p1 & L1 & L0).
          destruct (inner_shift x xs v (prod (map upto Ns')) Nl Nb LP p p1 (wr q x [] v) L1) as (q1 & L1' & O1).
          { intros y j N. rewrite Trace.wr_other; [apply O0; exact N|]. intros (<- & <-). apply N. simpl. auto. }
          { apply Trace.wr_same. }
          destruct (IH' (wr q x [] v) q1) as (o2 & q2 & Ho2 & R2 & O2).
          { apply (KEEP q); [|exact C0]. intros y. destruct (string_dec y x) as [->|Ny]; [auto|]. right. right. symmetry. apply Trace.wr_other. intros (E & _). congruence. }
          { exact L1'. }
          destruct (IHv p1 b0 q2 L0) as (b2 & Lb & Ob).
          { intros y j N. rewrite (O1 y j N). apply O2. intros (H & ->). apply N. simpl. auto. }
          { apply (KEEP q); [|exact C0]. intros y. destruct (in_dec string_dec y (swrites (nest ls body))) as [|Ny]; [auto|]. destruct (string_dec y x) as [->|Nx]; [auto|]. right. right.
            rewrite (runs_writes I _ _ _ _ y [] R2 Ny). symmetry. apply Trace.wr_other. intros (E & _). congruence. }
          exists b2. split; [|exact Ob]. exists q2. split; [|exact Lb]. exists o2. auto. }
      assert (SPLIT: forall vs a b, iterL (tup (x :: xs)) (flat_map (fun v => map (cons v) (prod (map upto Ns'))) vs) a b ->
        iterL (fun v : Z => fun a1 b1 => iterL (tup (x :: xs)) (map (cons v) (prod (map upto Ns'))) a1 b1) vs a b).
      { induction vs as [|v vs IHv]; intros a1 b1 L1; [exact L1|]. cbn [flat_map] in L1. apply iter_app in L1 as (m & L1 & L2). exists m. split; [exact L1|]. apply IHv. exact L2. }
      cbn [prod] in L. apply SPLIT in L. destruct (OUT _ _ _ a L) as (b2 & Lb & Ob); [intros y j _; reflexivity|exact C'|].
      pose proof (counts_trip a l n SU Cn) as Tr. fold x in Tr.
      destruct (iter_loop I x (l_c l) (l_u l) (nest ls body) ST (upto n) a b2 0 (Z.max 0 n) Tr Lb) as (b' & R & E).
      exists ONorm, b'. split; [auto|]. split.
      + cbn [nest]. econstructor; [|reflexivity|constructor]. econstructor; [reflexivity|exact R].
      + intros y j N. rewrite (Ob y j N). rewrite (steq_at _ _ y j E). symmetry. apply Trace.wr_other. intros (<- & <-). apply N. simpl. auto.
  Qed.
End Nest.

(* ---------------------------------------------------------------- kernels *)
(** one dimension of a kernel: the map, its schedule, number of iterations as an
    expression and as a number *)
Record dimension := Dm { d_l : level; d_sc : csched; d_b : expr; d_n : Z }.
Definition d_i (d : dimension) : string := l_i (d_l d).
Fixpoint guards (ds : list dimension) (body : seq) : seq :=
  match ds with
  | [] => body
  | d :: ds' => SCons (NIf (BCons (CLt (ESym (d_i d)) (d_b d)) (guards ds' body) BNil)) [] SNil
  end.
Definition cmap_of (d : dimension) : string * csched * option expr := (d_i d, d_sc d, Some (d_b d)).
Lemma kern_id A cuda :
  (forall n, cmapsN A cuda n = [] -> kernN A cuda n = Some n) /\
  (forall s, cmapsS A cuda s = [] -> kernS A cuda s = Some s) /\
  (forall b, cmapsB A cuda b = [] -> kernB A cuda b = Some b).
Proof.
  apply ir_mind; cbn [kernN kernS kernB cmapsN cmapsS cmapsB]; fold (kernN A cuda); fold (kernS A cuda); fold (kernB A cuda); fold (cmapsN A cuda); fold (cmapsS A cuda); fold (cmapsB A cuda); intros; auto; repeat match goal with H : _ ++ _ = [] |- _ => apply app_eq_nil in H as [? H] end;
    repeat match goal with H : ?P -> ?x = _, K : ?P |- _ => rewrite (H K); clear H end; auto.
  match goal with |- context [match ?k with KFor => _ | KMap => _ end] => destruct k; [reflexivity|] end.
  match goal with |- context [cuda ?i] => destruct (cuda i); [discriminate|reflexivity] end.
Qed.
Lemma kernS_cons A cuda n a r : kernS A cuda (SCons n a r) = match kernN A cuda n, kernS A cuda r with Some n', Some r' => Some (SCons n' a r') | _, _ => None end.
Proof. reflexivity. Qed.
Lemma guard_of A cuda i init c u s k : kernN A cuda (NLoop KMap i init c u s) = Some k -> forall sc, cuda i = Some sc -> c_sync sc = false ->
  exists b s', iterations A i init c u = Some b /\ kernS A cuda s = Some s' /\ k = NIf (BCons (CLt (ESym i) b) s' BNil).
Proof.
  cbn [kernN]. intros H sc E Y. rewrite E in H. destruct (iterations A i init c u) as [b|]; [|discriminate]. fold (kernS A cuda s) in H. destruct (kernS A cuda s) as [s'|]; [|discriminate].
  rewrite Y in H. injection H as <-. eauto.
Qed.
Lemma nest_dims A cuda st body ls : cmapsS A cuda body = [] -> (forall l, In l ls -> exists sc, cuda (l_i l) = Some sc /\ c_sync sc = false) ->
  forall k, kernS A cuda (nest ls body) = Some k -> exists ds, map d_l ds = ls /\ k = guards ds body /\
    cmapsS A cuda (nest ls body) = map cmap_of ds /\
    Forall (fun d => iterations A (d_i d) (EInt 0) (l_c (d_l d)) (l_u (d_l d)) = Some (d_b d) /\
      d_n d = match eval (env_of st) (d_b d) with Some n => n | None => 0 end) ds.
Proof.
  intros NB. induction ls as [|l ls IH]; intros HS k H.
  - exists []. cbn [nest] in H. rewrite (proj1 (proj2 (kern_id A cuda)) body NB) in H. injection H as <-. split; [reflexivity|]. split; [reflexivity|]. split; [exact NB|constructor].
  - cbn [nest] in H. rewrite kernS_cons in H. destruct (kernN A cuda (NLoop KMap (l_i l) (EInt 0) (l_c l) (l_u l) (nest ls body))) as [k0|] eqn:E; [|discriminate]. injection H as <-.
    destruct (HS l ltac:(left; reflexivity)) as (sc & Es & Ey). destruct (guard_of _ _ _ _ _ _ _ _ E sc Es Ey) as (b & s' & Eb & Ek & ->).
    destruct (IH ltac:(intros w Hw; apply HS; right; exact Hw) s' Ek) as (ds & E1 & -> & E3 & E4).
    exists (Dm l sc b (match eval (env_of st) b with Some n => n | None => 0 end) :: ds). cbn [map d_l]. split; [congruence|]. split; [reflexivity|]. split.
    + cbn [nest cmapsS cmapsN]. rewrite Es, Eb. fold (cmapsS A cuda (nest ls body)). rewrite E3, app_nil_r. reflexivity.
    + constructor; [|exact E4]. split; [exact Eb|reflexivity].
Qed.

Lemma iterP_det I l : forall a a' b b', iterL (instP I) l a b -> iterL (instP I) l a' b' -> steq a a' -> steq b b'.
Proof.
  induction l as [|it l IH]; intros a a' b b' L L' E.
  - simpl in L, L'. eapply eqx_trans; [apply eqx_sym; exact L|]. eapply eqx_trans; [exact E|exact L'].
  - destruct L as (m & R & L). destruct L' as (m' & R' & L'). eapply IH; [exact L|exact L'|].
    destruct (item_ext (instP I) snd (fun it a b => instP_local I it a b) it a m a' R E) as (m2 & R2 & E2).
    rewrite (instP_det I it a' m' m2 R' R2). exact E2.
Qed.

Section Threads.
  Variables (I : nat -> list Z -> option Z) (body : seq) (st : store) (L : list Z -> trace).
  Definition coord (xs : list Z) (d : dimension) : Z := nth (c_dim (d_sc d)) xs 0.
  Fixpoint inr (ds : list dimension) (t : list Z) : bool :=
    match ds, t with d :: ds', v :: t' => (v <? d_n d) && inr ds' t' | _, _ => true end.
  Definition reads (X : string -> Prop) (G : trace) : Prop := forall e, In e G -> exists x, e = Ev false x [] [] /\ X x.
  Lemma reads_written X G x j : reads X G -> ~ written G x j.
  Proof. intros H (e & W). destruct (H _ W) as (y & E & _). discriminate. Qed.
  Lemma reads_exposed (X : string -> Prop) G x j : reads X G -> exposed G x j -> X x /\ j = [].
  Proof. intros H E. apply exposed_read in E as (e & E). destruct (H _ E) as (y & Q & K). injection Q as -> -> ->. auto. Qed.
  Lemma reads_app X G1 G2 : reads X G1 -> reads X G2 -> reads X (G1 ++ G2).
  Proof. intros H1 H2 e H. apply in_app_iff in H as [H|H]; auto. Qed.
  Lemma reads_rds (X : string -> Prop) l : (forall x, In x l -> X x) -> reads X (rds l).
  Proof. intros H e He. unfold rds in He. apply in_map_iff in He as (x & <- & Hx). eauto. Qed.

  (** the tests of a kernel select the iteration or do nothing *)
  Lemma run_guards (X : string -> Prop) ds : forall t s, List.length t = List.length ds ->
    (forall d x, In d ds -> x = d_i d \/ In x (atoms (d_b d)) -> X x) ->
    Forall2 (fun d v => cev (env_of s) (CLt (ESym (d_i d)) (d_b d)) = Some (v <? d_n d)) ds t ->
    if inr ds t then forall b T, runsT I body s ONorm b T -> exists G, reads X G /\ runsT I (guards ds body) s ONorm b (G ++ T)
    else exists G, reads X G /\ runsT I (guards ds body) s ONorm s G.
  Proof.
    induction ds as [|d ds IH]; intros t s Lt HX C.
    - destruct t; [|discriminate]. cbn [inr]. intros b T R. exists []. split; [intros e []|exact R].
    - inversion C as [|? v ? t' Cv C']; subst. cbn [inr guards].
      assert (RD: reads X (rds (catoms (CLt (ESym (d_i d)) (d_b d))))).
      { apply reads_rds. intros x Hx. apply (HX d); [left; reflexivity|]. cbn [catoms atoms] in Hx. apply in_app_iff in Hx as [[<-|[]]|Hx]; auto. }
      specialize (IH t' s ltac:(simpl in Lt; lia) ltac:(intros; eapply HX; [right|]; eassumption) C').
      destruct (v <? d_n d); cbn [andb].
      + destruct (inr ds t').
        * intros b T R. destruct (IH b T R) as (G & RG & K). exists (rds (catoms (CLt (ESym (d_i d)) (d_b d))) ++ G). split; [apply reads_app; assumption|].
          replace ((rds (catoms (CLt (ESym (d_i d)) (d_b d))) ++ G) ++ T) with ((rds (catoms (CLt (ESym (d_i d)) (d_b d))) ++ G ++ T) ++ asg_trace [] ++ []) by (rewrite app_nil_r, app_assoc; reflexivity).
          eapply T_cons; [apply T_if; apply T_btrue; [exact Cv|exact K]|reflexivity|constructor].
        * destruct IH as (G & RG & K). exists (rds (catoms (CLt (ESym (d_i d)) (d_b d))) ++ G). split; [apply reads_app; assumption|].
          replace (rds (catoms (CLt (ESym (d_i d)) (d_b d))) ++ G) with ((rds (catoms (CLt (ESym (d_i d)) (d_b d))) ++ G) ++ asg_trace [] ++ []) by apply app_nil_r.
          eapply T_cons; [apply T_if; apply T_btrue; [exact Cv|exact K]|reflexivity|constructor].
      + exists (rds (catoms (CLt (ESym (d_i d)) (d_b d)))). split; [exact RD|].
        replace (rds (catoms (CLt (ESym (d_i d)) (d_b d)))) with ((rds (catoms (CLt (ESym (d_i d)) (d_b d))) ++ []) ++ asg_trace [] ++ []) by (rewrite !app_nil_r; reflexivity).
        eapply T_cons; [apply T_if; apply T_bfalse; [exact Cv|constructor]|reflexivity|constructor].
  Qed.
  Lemma declare_exec ds xs : forall a, exec_assigns a (declare (map cmap_of ds) xs) = Some (setv (map d_i ds) (map (coord xs) ds) a).
  Proof. induction ds as [|d ds IH]; intros a; [reflexivity|]. cbn. apply IH. Qed.
  Lemma declare_trace ds xs : asg_trace (declare (map cmap_of ds) xs) = map (fun d => Ev true (d_i d) [] []) ds.
  Proof. induction ds as [|d ds IH]; [reflexivity|]. unfold declare, asg_trace in *. cbn. f_equal. exact IH. Qed.
  Lemma decl_written ds x j : written (map (fun d => Ev true (d_i d) [] []) ds) x j <-> In x (map d_i ds) /\ j = [].
  Proof.
    split; [intros (e & H); apply in_map_iff in H as (d & E & Hd); injection E as <- <- <-; split; [apply in_map; exact Hd|reflexivity]|].
    intros (H & ->). apply in_map_iff in H as (d & <- & Hd). exists []. apply in_map_iff. eauto.
  Qed.
  Lemma decl_exposed ds x j : ~ exposed (map (fun d => Ev true (d_i d) [] []) ds) x j.
  Proof. induction ds as [|d ds IH]; [intros []|]. cbn. tauto. Qed.

  Variable ds : list dimension.
  Notation vars := (map d_i ds).
  Hypothesis ND : NoDup vars.
  Hypothesis HB : forall d, In d ds -> eval (env_of st) (d_b d) = Some (d_n d) /\ forall x, In x (atoms (d_b d)) -> ~ In x vars.
  Lemma setv_get xs : forall a t, NoDup xs -> Forall2 (fun x v => setv xs t a x [] = v) xs t \/ List.length t <> List.length xs.
  Proof.
    induction xs as [|x xs IH]; intros a [|v t] N; [left; constructor|right; discriminate|right; discriminate|]. inversion N as [|? ? Nx N']; subst.
    destruct (IH (wr a x [] v) t N') as [H|H]; [left|right; simpl; lia]. constructor; [cbn [setv]; rewrite setv_other by (intros (Q & _); contradiction); apply Trace.wr_same|exact H].
  Qed.
  Lemma guard_tests t : List.length t = List.length ds -> Forall2 (fun d v => cev (env_of (setv vars t st)) (CLt (ESym (d_i d)) (d_b d)) = Some (v <? d_n d)) ds t.
  Proof.
    intros Lt. destruct (setv_get vars st t ND) as [H|H]; [|rewrite map_length in H; contradiction].
    clear Lt. set (s := setv vars t st) in *.
    assert (E: forall d, In d ds -> ev (env_of s) (d_b d) = Fin (d_n d)).
    { intros d Hd. destruct (HB d Hd) as (Ed & Nd). unfold eval in Ed. destruct (ev (env_of st) (d_b d)) as [z| | |] eqn:Ez; try discriminate. injection Ed as <-. rewrite <- Ez.
      apply ev_agree. intros x Hx. unfold env_of, s. apply setv_other. intros (Hv & _). exact (Nd x Hx Hv). }
    clear ND HB. clearbody s. revert t H E. induction ds as [|d es IH]; intros t H E; inversion H as [|? v ? t' H1 H2]; subst; constructor.
    - cbn [cev ev]. rewrite (E d ltac:(left; reflexivity)). unfold env_of. cbn [xleb onegb]. f_equal. rewrite <- Z.ltb_antisym. reflexivity.
    - apply IH; [exact H2|]. intros d' Hd'. apply E. right. exact Hd'.
  Qed.

  (** what a thread does: private coordinates, reads of the tests, its iteration *)
  Definition bsym (x : string) : Prop := exists d, In d ds /\ In x (atoms (d_b d)).
  Record does (xs : list Z) (it : seq * trace) : Prop := {
    do_prog : fst it = thread_program (map cmap_of ds) (guards ds body) xs;
    do_ends : exists b, instP I it st b /\ (inr ds (map (coord xs) ds) = true -> runsT I body (setv vars (map (coord xs) ds) st) ONorm b (L (map (coord xs) ds)));
    do_wr : forall x j, written (snd it) x j <-> (In x vars /\ j = []) \/ (inr ds (map (coord xs) ds) = true /\ written (L (map (coord xs) ds)) x j);
    do_rd : forall x j, exposed (snd it) x j -> ~ (In x vars /\ j = []) /\ ((bsym x /\ j = []) \/ (inr ds (map (coord xs) ds) = true /\ exposed (L (map (coord xs) ds)) x j)) }.
  Lemma thread_does xs : (inr ds (map (coord xs) ds) = true -> exists b, runsT I body (setv vars (map (coord xs) ds) st) ONorm b (L (map (coord xs) ds))) ->
    exists T, does xs (thread_program (map cmap_of ds) (guards ds body) xs, T).
  Proof.
    intros HL. set (t := map (coord xs) ds) in *. set (W := map (fun d => Ev true (d_i d) [] []) ds).
    assert (Lt: List.length t = List.length ds) by apply map_length.
    pose proof (run_guards (fun x => In x vars \/ bsym x) ds t (setv vars t st) Lt) as RG.
    specialize (RG ltac:(intros d x Hd [->|Hx]; [left; apply in_map; exact Hd|right; exists d; auto]) (guard_tests t Lt)).
    assert (STEP: forall b T, runsT I (guards ds body) (setv vars t st) ONorm b T -> instP I (thread_program (map cmap_of ds) (guards ds body) xs, W ++ T) st b).
    { intros b T R. exists ONorm. split; [auto|]. cbn [fst snd]. unfold thread_program, W. rewrite <- (declare_trace ds xs).
      change (asg_trace (declare (map cmap_of ds) xs) ++ T) with ([] ++ asg_trace (declare (map cmap_of ds) xs) ++ T).
      eapply T_cons; [apply T_seq, T_nil|apply declare_exec|exact R]. }
    assert (EXP: forall T x j, exposed (W ++ T) x j -> ~ (In x vars /\ j = []) /\ exposed T x j).
    { intros T x j X. apply exposed_app in X as [X|(N & X)]; [elim (decl_exposed ds x j X)|]. split; [|exact X]. intros Q. apply N. apply decl_written. exact Q. }
    destruct (inr ds t) eqn:IN.
    - destruct (HL eq_refl) as (b & R). destruct (RG b (L t) R) as (G & HG & RR). exists (W ++ G ++ L t). split; cbn [fst snd].
      + reflexivity.
      + exists b. split; [apply STEP; exact RR|]. auto.
      + intros x j. fold t. rewrite !written_app. unfold W. rewrite decl_written. pose proof (reads_written _ G x j HG). tauto.
      + intros x j X. fold t. apply EXP in X as (N & X). split; [exact N|]. apply exposed_app in X as [X|(_ & X)]; [|right; auto].
        destruct (reads_exposed _ _ _ _ HG X) as ([Hx|Hx] & ->); [elim N; auto|left; auto].
    - destruct RG as (G & HG & RR). exists (W ++ G). split; cbn [fst snd].
      + reflexivity.
      + exists (setv vars t st). split; [apply STEP; exact RR|]. fold t. rewrite IN. discriminate.
      + intros x j. fold t. rewrite !written_app. unfold W. rewrite decl_written, IN. pose proof (reads_written _ G x j HG). intuition discriminate.
      + intros x j X. fold t. apply EXP in X as (N & X). split; [exact N|]. left.
        destruct (reads_exposed _ _ _ _ HG X) as ([Hx|Hx] & ->); [elim N; auto|auto].
  Qed.

  Variable priv : string -> bool.
  Hypothesis PV : forall x, In x vars -> priv x = true.
  Hypothesis PB : forall x, bsym x -> priv x = false /\ ~ In x (swrites body).
  Lemma log_writes t b x j : runsT I body (setv vars t st) ONorm b (L t) -> written (L t) x j -> In x (swrites body).
  Proof. intros R (e & W). exact (proj1 (proj2 (trace_writes I)) _ _ _ _ _ R _ _ _ W). Qed.
  Definition tuples : list (list Z) := prod (map (fun d => upto (d_n d)) ds).
  (** the iterations are independent *)
  Hypothesis LE : forall t, In t tuples -> exists b, runsT I body (setv vars t st) ONorm b (L t).
  Hypothesis LA : forall t t', In t tuples -> In t' tuples -> t <> t' -> forall x j, priv x = false -> written (L t) x j -> ~ touched (L t') x j.
  Hypothesis LX : forall t x j, In t tuples -> priv x = true -> ~ (In x vars /\ j = []) -> ~ exposed (L t) x j.

  Definition prog_of (t : list Z) : seq * trace :=
    (SCons (NSeq SNil) (combine vars (map EInt t)) body, map (fun d => Ev true (d_i d) [] []) ds ++ L t).
  Lemma combine_exec xs : forall t a, exec_assigns a (combine xs (map EInt t)) = Some (setv xs t a).
  Proof. induction xs as [|x xs IH]; intros [|v t] a; try reflexivity. cbn. apply IH. Qed.
  Lemma combine_trace es : forall t, List.length t = List.length es -> asg_trace (combine (map d_i es) (map EInt t)) = map (fun d => Ev true (d_i d) [] []) es.
  Proof. induction es as [|d es IH]; intros [|v t] Lt; try discriminate; [reflexivity|]. unfold asg_trace in *. cbn. f_equal. apply IH. simpl in Lt. lia. Qed.
  Lemma tuple_len t : In t tuples -> List.length t = List.length ds.
  Proof. intros H. apply in_prod in H. apply F2_length in H. rewrite map_length in H. exact H. Qed.
  Lemma prog_tup t a b : List.length t = List.length ds -> (instP I (prog_of t) a b -> tup I body vars t a b) /\
    (runsT I body (setv vars t a) ONorm b (L t) -> instP I (prog_of t) a b).
  Proof.
    intros Lt. split.
    - intros (o & Ho & R). cbn [fst prog_of] in R. exists o. split; [exact Ho|]. inversion R; subst.
      + match goal with H : runT _ _ _ ONorm _ _ |- _ => inversion H; subst; match goal with H : runsT _ SNil _ _ _ _ |- _ => inversion H; subst end end.
        match goal with H : exec_assigns _ _ = Some _ |- _ => rewrite combine_exec in H; injection H as <- end. eapply (proj1 (proj2 (trace_run I))). eassumption.
      + match goal with H : runT _ (NSeq SNil) _ _ _ _ |- _ => inversion H; subst; match goal with H : runsT _ SNil _ _ _ _ |- _ => inversion H; subst end end. congruence.
    - intros R. exists ONorm. split; [auto|]. cbn [fst snd prog_of]. rewrite <- (combine_trace ds t Lt).
      match goal with |- runsT _ _ _ _ _ (?x ++ ?y) => change (x ++ y) with ([] ++ x ++ y) end.
      eapply T_cons; [apply T_seq, T_nil|apply combine_exec|exact R].
  Qed.
  Lemma apart_conf T T' x j : (written T x j -> ~ touched T' x j) -> written T x j -> ~ written T' x j /\ ~ exposed T' x j.
  Proof.
    intros H W. specialize (H W). split; [intros W'; apply H, touched_written, W'|]. intros X. apply H. apply exposed_read in X as (e & X). exists false, e. exact X.
  Qed.
  Lemma pairs_nodup {X Y} (R : Y -> Y -> Prop) (P : X -> Y -> Prop) (xs : list X) (ys : list Y) : NoDup xs -> Forall2 P xs ys ->
    (forall x x' y y', In x xs -> In x' xs -> x <> x' -> P x y -> P x' y' -> R y y') -> ForallOrdPairs R ys.
  Proof.
    intros N F. induction F as [|x y xs ys Hxy F IH]; intros H; [constructor|]. inversion N as [|? ? Nx N']; subst. constructor.
    - clear IH N'. assert (G: forall xs' ys', Forall2 P xs' ys' -> (forall z, In z xs' -> In z xs) -> Forall (R y) ys').
      { induction 1 as [|x' y' xs' ys' H' F' IH]; intros Sub; constructor; [|apply IH; intros; apply Sub; right; assumption].
        apply (H x x'); auto; [left; reflexivity|right; apply Sub; left; reflexivity|]. intros ->. apply Nx, Sub. left. reflexivity. }
      apply (G xs ys F). auto.
    - apply IH; [exact N'|]. intros z z' w w' Hz Hz' Ne P1 P2. apply (H z z'); [right; exact Hz|right; exact Hz'|exact Ne|exact P1|exact P2].
  Qed.
  Lemma seq_items : exists b, iterL (tup I body vars) tuples st b /\
    (forall t b0 x j, In t tuples -> runsT I body (setv vars t st) ONorm b0 (L t) -> priv x = false -> written (L t) x j -> b x j = b0 x j) /\
    (forall x j, priv x = false -> (forall t, In t tuples -> ~ written (L t) x j) -> b x j = st x j).
  Proof.
    assert (NT: NoDup tuples). { apply prod_nodup. apply Forall_forall. intros r Hr. apply in_map_iff in Hr as (d & <- & _). apply upto_nodup. }
    assert (NV: forall x, priv x = false -> ~ In x vars) by (intros x Px Hx; rewrite (PV x Hx) in Px; discriminate).
    assert (WP: forall t x j, priv x = false -> (written (snd (prog_of t)) x j <-> written (L t) x j)).
    { intros t x j Px. cbn [prog_of snd]. rewrite written_app, decl_written. pose proof (NV x Px). tauto. }
    destruct (items_value I priv st (map prog_of tuples)) with (a := st) as (b & Lb & Vb & Zb).
    - intros it Hit. apply in_map_iff in Hit as (t & <- & Ht). destruct (LE t Ht) as (b & R). exists b. apply prog_tup; [apply tuple_len; exact Ht|exact R].
    - intros it Hit x j Px X. apply in_map_iff in Hit as (t & <- & Ht). cbn [prog_of snd] in X. apply exposed_app in X as [X|(N & X)]; [elim (decl_exposed ds x j X)|].
      apply (LX t x j Ht Px); [|exact X]. intros Q. apply N. apply decl_written. exact Q.
    - apply (pairs_nodup (nconf priv) (fun t it => it = prog_of t) tuples); [exact NT| |].
      { clear. generalize tuples. induction l; constructor; auto. }
      intros t t' y y' Ht Ht' Ne -> -> x j Px. unfold byname in Px.
      assert (XP: forall t, exposed (snd (prog_of t)) x j -> exposed (L t) x j). { intros t0 X. cbn [prog_of snd] in X. apply exposed_app in X as [X|(_ & X)]; [elim (decl_exposed ds x j X)|exact X]. }
      rewrite !WP by exact Px. split; intros W.
      + destruct (apart_conf _ _ x j (LA t t' Ht Ht' Ne x j Px) W) as (K1 & K2). split; [exact K1|]. intros X. exact (K2 (XP t' X)).
      + destruct (apart_conf _ _ x j (LA t' t Ht' Ht ltac:(congruence) x j Px) W) as (K1 & K2). intros X. exact (K2 (XP t X)).
    - auto.
    - exists b. split; [|split].
      + clear Vb Zb. assert (G: forall l, (forall t, In t l -> In t tuples) -> forall a, iterL (instP I) (map prog_of l) a b -> iterL (tup I body vars) l a b).
        { induction l as [|t l IH]; intros Sub a K; [exact K|]. destruct K as (m & K1 & K2). exists m. split; [apply prog_tup; [apply tuple_len, Sub; left; reflexivity|exact K1]|].
          apply IH; [intros; apply Sub; right; assumption|exact K2]. }
        apply G; auto.
      + intros t b0 x j Ht R Px W. apply (Vb (prog_of t)); [apply in_map; exact Ht|apply prog_tup; [apply tuple_len; exact Ht|exact R]|exact Px|apply WP; assumption].
      + intros x j Px N. apply Zb; [exact Px|]. intros it Hit. apply in_map_iff in Hit as (t & <- & Ht). rewrite WP by exact Px. apply N. exact Ht.
  Qed.

  (** the threads [g] *)
  Variable g : list (list Z).
  Hypothesis NG : NoDup g.
  Hypothesis GI : forall xs xs', In xs g -> In xs' g -> map (coord xs) ds = map (coord xs') ds -> xs = xs'.
  Hypothesis GP : forall xs, In xs g -> forall v, In v xs -> 0 <= v.
  Hypothesis GC : forall t, In t tuples -> exists xs, In xs g /\ map (coord xs) ds = t.
  Lemma inr_tuple xs : In xs g -> inr ds (map (coord xs) ds) = true -> In (map (coord xs) ds) tuples.
  Proof.
    intros Hx H. apply in_prod. assert (NN: forall d, 0 <= coord xs d).
    { intros d. unfold coord. destruct (nth_in_or_default (c_dim (d_sc d)) xs 0) as [K| ->]; [apply (GP xs Hx); exact K|lia]. }
    clear - H NN. induction ds as [|d es IH]; cbn in *; [constructor|]. apply andb_prop in H as [H1 H2]. constructor; [|auto]. apply in_upto. specialize (NN d). lia.
  Qed.
  Lemma tuple_inr t : In t tuples -> inr ds t = true.
  Proof.
    intros H. apply in_prod in H. unfold tuples in *. clear - H. revert t H. induction ds as [|d es IH]; intros t H; inversion H; subst; [reflexivity|].
    match goal with K : In _ (upto _) |- _ => apply in_upto in K end. cbn. rewrite IH by assumption. apply andb_true_intro. split; [lia|reflexivity].
  Qed.
  Lemma kernel_team ws : Permutation (map (thread_program (map cmap_of ds) (guards ds body)) g) (concat (map snd ws)) ->
    exists b N, iterL (tup I body vars) tuples st b /\ forall n d, psteps I priv n (st, start ws) d ->
      (n <= N)%nat /\ (n = N <-> Forall finished (snd d)) /\
      (forall t, In t (snd d) -> finished t \/ exists ev g' t', fire I priv (fst d) t = Some (ev, g', t')) /\
      (forall p q t t2 ev ev2 g1 g2 t1' t2' x j, p <> q -> nth_error (snd d) p = Some t -> nth_error (snd d) q = Some t2 ->
         fire I priv (fst d) t = Some (ev, g1, t1') -> fire I priv (fst d) t2 = Some (ev2, g2, t2') ->
         priv x = false -> written ev x j -> touched ev2 x j -> False) /\
      (Forall finished (snd d) -> forall x j, priv x = false -> fst d x j = b x j).
  Proof.
    intros PM. destruct seq_items as (b & Lb & Vb & Zb).
    assert (NV: forall x, priv x = false -> ~ In x vars) by (intros x Px Hx; rewrite (PV x Hx) in Px; discriminate).
    assert (ITS: exists its, map fst its = map (thread_program (map cmap_of ds) (guards ds body)) g /\ Forall2 does g its).
    { assert (G: forall l, (forall xs, In xs l -> In xs g) -> exists its, map fst its = map (thread_program (map cmap_of ds) (guards ds body)) l /\ Forall2 does l its).
      { induction l as [|xs l IH]; intros Sub; [exists []; split; [reflexivity|constructor]|]. destruct IH as (its & E & F); [intros; apply Sub; right; assumption|].
        destruct (thread_does xs) as (T & D). { intros H. apply LE. apply inr_tuple; [apply Sub; left; reflexivity|exact H]. }
        exists ((thread_program (map cmap_of ds) (guards ds body) xs, T) :: its). split; [simpl; rewrite E; reflexivity|]. constructor; assumption. }
      apply G. auto. }
    destruct ITS as (its & EF & F2).
    assert (IN: forall it, In it its -> exists xs, In xs g /\ does xs it).
    { clear - F2. induction F2 as [|xs it g its H F2 IH]; intros w Hw; [elim Hw|]. destruct Hw as [<-|Hw]; [exists xs; split; [left; reflexivity|exact H]|].
      destruct (IH w Hw) as (xs' & K1 & K2). exists xs'. split; [right; exact K1|exact K2]. }
    assert (NI: forall xs, In xs g -> exists it, In it its /\ does xs it).
    { clear - F2. induction F2 as [|xs it g its H F2 IH]; intros w Hw; [elim Hw|]. destruct Hw as [<-|Hw]; [exists it; split; [left; reflexivity|exact H]|].
      destruct (IH w Hw) as (xs' & K1 & K2). exists xs'. split; [right; exact K1|exact K2]. }
    assert (EX: forall it, In it its -> exists b, instP I it st b). { intros it Hit. destruct (IN it Hit) as (xs & _ & D). destruct (do_ends _ _ D) as (b0 & R & _). eauto. }
    assert (PR: forall it, In it its -> private (byname priv) (snd it)).
    { intros it Hit x j Px X. unfold byname in Px. destruct (IN it Hit) as (xs & Hxs & D). destruct (do_rd _ _ D x j X) as (N & [(B & _)|(R & K)]).
      - destruct (PB x B). congruence.
      - exact (LX _ x j (inr_tuple xs Hxs R) Px N K). }
    assert (NC: ForallOrdPairs (nconf priv) its).
    { apply (pairs_nodup (nconf priv) does g its NG F2). intros xs xs' it it' Hx Hx' Ne D D' x j Px. unfold byname in Px.
      assert (K: forall xs xs' it it', In xs g -> In xs' g -> xs <> xs' -> does xs it -> does xs' it' -> written (snd it) x j -> ~ written (snd it') x j /\ ~ exposed (snd it') x j).
      { clear xs xs' it it' Hx Hx' Ne D D'. intros xs xs' it it' Hx Hx' Ne D D' W. apply (do_wr _ _ D) in W as [(Q & _)|(R & W)]; [elim (NV x Px Q)|].
        pose proof (inr_tuple xs Hx R) as Ht. split.
        - intros W'. apply (do_wr _ _ D') in W' as [(Q & _)|(R' & W')]; [elim (NV x Px Q)|]. pose proof (inr_tuple xs' Hx' R') as Ht'.
          refine (LA _ _ Ht Ht' _ x j Px W _); [intros Q; apply Ne; apply GI; assumption|apply touched_written; exact W'].
        - intros X. destruct (do_rd _ _ D' x j X) as (N & [(B & _)|(R' & X')]).
          + destruct (PB x B) as (_ & NB). destruct (LE _ Ht) as (b0 & Rb). exact (NB (log_writes _ _ _ _ Rb W)).
          + pose proof (inr_tuple xs' Hx' R') as Ht'. refine (LA _ _ Ht Ht' _ x j Px W _); [intros Q; apply Ne; apply GI; assumption|].
            apply exposed_read in X' as (e & X'). exists false, e. exact X'. }
      split; [intros W; exact (K xs xs' it it' Hx Hx' Ne D D' W)|]. intros W. exact (proj2 (K xs' xs it' it Hx' Hx ltac:(congruence) D' D W)). }
    destruct (team I priv st its ws) as (b2 & N & L2 & K); [rewrite EF; exact PM|exact EX|exact PR|exact NC|].
    exists b, N. split; [exact Lb|]. intros n d ST. destruct (K n d ST) as (K1 & K2 & K3 & K4 & K5). split; [exact K1|]. split; [exact K2|]. split; [exact K3|]. split; [exact K4|].
    intros F x j Px. rewrite (K5 F x j Px). clear K K1 K2 K3 K4 K5 ST F d n.
    destruct (items_value I priv st its EX PR NC st) as (b3 & L3 & V3 & Z3); [auto|].
    rewrite (steq_at _ _ x j (iterP_det I its st st b2 b3 L2 L3 ltac:(apply eqx_refl))).
    assert (DEC: (exists t, In t tuples /\ written (L t) x j) \/ forall t, In t tuples -> ~ written (L t) x j).
    { clear. induction tuples as [|t l [(w & Hw & W)|H]]; [right; intros t []|left; exists w; split; [right; exact Hw|exact W]|].
      destruct (written_dec (L t) x j) as [W|W]; [left; exists t; split; [left; reflexivity|exact W]|right]. intros w [<-|Hw]; auto. }
    destruct DEC as [(t & Ht & W)|N0].
    - destruct (GC t Ht) as (xs & Hxs & Et). destruct (NI xs Hxs) as (it & Hit & D). destruct (do_ends _ _ D) as (b0 & R & RB). rewrite Et in RB. specialize (RB (tuple_inr t Ht)).
      rewrite (V3 it b0 x j Hit R Px); [symmetry; apply (Vb t); assumption|]. apply (do_wr _ _ D). right. rewrite Et. split; [apply tuple_inr; exact Ht|exact W].
    - rewrite (Zb x j Px N0). apply Z3; [exact Px|]. intros it Hit W. destruct (IN it Hit) as (xs & Hxs & D). destruct (proj1 (do_wr _ _ D x j) W) as [(Q & _)|(R & W')]; [exact (NV x Px Q)|].
      exact (N0 _ (inr_tuple xs Hxs R) W').
  Qed.
End Threads.

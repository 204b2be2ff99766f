(** Proofs about BlockSort.v: sorting a program step by step. *)
From Verif Require Import Sym SymFacts Alloc AllocProofs AllocSim BlockSort BlockSortProofs.

(** The accesses and the blocks of a program. *)
Fixpoint ins_of (n : node) : list ins :=
  match n with
  | NBlk l => l
  | NSeq p => flat_map (fun c => ins_of (fst c) ++ snd c) p
  | NIf _ p q => flat_map (fun c => ins_of (fst c) ++ snd c) p ++ flat_map (fun c => ins_of (fst c) ++ snd c) q
  | NLoop i _ u p => i ++ u ++ flat_map (fun c => ins_of (fst c) ++ snd c) p
  | _ => []
  end.
Fixpoint blocks_of (n : node) : list (list ins) :=
  match n with
  | NBlk l => [l]
  | NSeq p | NLoop _ _ _ p => flat_map (fun c => blocks_of (fst c)) p
  | NIf _ p q => flat_map (fun c => blocks_of (fst c)) p ++ flat_map (fun c => blocks_of (fst c)) q
  | _ => []
  end.
Definition insc (c : child) : list ins := ins_of (fst c) ++ snd c.
Definition accesses (p : list child) : list ins := flat_map insc p.
Definition blocks (p : list child) : list (list ins) := flat_map (fun c => blocks_of (fst c)) p.

Section Ind.
  Variable P : node -> Prop.
  Hypothesis Hb : forall l, P (NBlk l).
  Hypothesis Hs : forall p, Forall (fun c => P (fst c)) p -> P (NSeq p).
  Hypothesis Hi : forall c p q, Forall (fun c => P (fst c)) p -> Forall (fun c => P (fst c)) q -> P (NIf c p q).
  Hypothesis Hl : forall i c u p, Forall (fun c => P (fst c)) p -> P (NLoop i c u p).
  Hypothesis H1 : P NBreak.
  Hypothesis H2 : P NCont.
  Hypothesis H3 : P NReturn.
  Fixpoint node_ind' (n : node) : P n :=
    let fix go (p : list child) : Forall (fun c => P (fst c)) p :=
      match p with [] => Forall_nil _ | c :: r => Forall_cons c (match c return P (fst c) with (n, _) => node_ind' n end) (go r) end in
    match n with
    | NBlk l => Hb l
    | NSeq p => Hs p (go p)
    | NIf c p q => Hi c p q (go p) (go q)
    | NLoop i c u p => Hl i c u p (go p)
    | NBreak => H1 | NCont => H2 | NReturn => H3
    end.
End Ind.

Lemma views_app cls a b : views cls (a ++ b) <-> views cls a /\ views cls b.
Proof.
  split; [intros V; split; intros y x e H; apply (V y x e), in_app_iff; auto|intros [A B] y x e H; apply in_app_iff in H as [H|H]; eauto].
Qed.
Lemma views_if cls p q (t : bool) : views cls (accesses p ++ accesses q) -> views cls (accesses (if t then p else q)).
Proof. intros V. apply views_app in V as [A B]. destruct t; assumption. Qed.

(** the state stays good *)
Theorem exec_good cls :
  (forall n m o m1, exec n m o m1 -> views cls (ins_of n) -> good cls m -> good cls m1) /\
  (forall p m o m1, execs p m o m1 -> views cls (accesses p) -> good cls m -> good cls m1) /\
  (forall c u p m o m1, iter c u p m o m1 -> views cls (u ++ accesses p) -> good cls m -> good cls m1).
Proof.
  apply exec_all; auto.
  - intros l m m1 R V G. exact (steps_good _ _ _ _ R V G).
  - intros c p q m t o m1 _ _ IH V G. apply IH; [|exact G]. apply views_if. exact V.
  - intros i c u p m m1 o m2 R _ IH V G. simpl in V. apply views_app in V as [A B]. apply IH; [exact B|]. exact (steps_good _ _ _ _ R A G).
  - intros n tr p m m1 m2 o m3 _ IH1 R _ IH2 V G. cbn [accesses flat_map] in V. unfold insc in V. simpl in V. apply views_app in V as [V C]. apply views_app in V as [A B].
    apply IH2; [exact C|]. apply (steps_good _ _ _ _ R B). apply IH1; assumption.
  - intros n tr p m o m1 _ IH _ V G. cbn [accesses flat_map] in V. unfold insc in V. simpl in V. apply views_app in V as [V _]. apply views_app in V as [A _]. apply IH; assumption.
  - intros c u p m o1 m1 m2 o m3 _ _ IH1 _ R _ IH2 V G. pose proof V as W. apply views_app in W as [A B].
    apply IH2; [exact V|]. apply (steps_good _ _ _ _ R A). apply IH1; assumption.
  - intros c u p m m1 _ _ IH V G. apply views_app in V as [A B]. auto.
  - intros c u p m m1 _ _ IH V G. apply views_app in V as [A B]. auto.
Qed.

Section Sim.
  Variables (cls : string -> string) (BB : list (list ins)).
  Hypothesis fills : forall a x v n, In a BB -> In [Fill x v n] BB -> (forall z, In z (names1 (Fill x v n)) -> ~ In z (names a)) ->
    forall z, In z (names a) -> cls z <> cls x.
  Definition le (p q : list child) : Prop := forall m m1 o m', good cls m -> meq m m1 -> execs p m o m' -> exists m'', execs q m1 o m'' /\ meq m' m''.
  Definition leN (n n' : node) : Prop := forall m m1 o m', good cls m -> meq m m1 -> exec n m o m' -> exists m'', exec n' m1 o m'' /\ meq m' m''.
  Lemma le_refl p : le p p.
  Proof. intros m m1 o m' _ A R. exact (proj1 (proj2 exec_meq) p m o m' R m1 A). Qed.
  Lemma leN_refl n : leN n n.
  Proof. intros m m1 o m' _ A R. exact (proj1 exec_meq n m o m' R m1 A). Qed.
  Lemma le_trans p q r : le p q -> le q r -> le p r.
  Proof.
    intros H1 H2 m m1 o m' G A R. destruct (H1 m m o m' G (agree_refl _ _ _) R) as (m2 & R2 & A2).
    destruct (H2 m m1 o m2 G A R2) as (m3 & R3 & A3). exists m3. split; [exact R3|]. exact (agree_trans _ _ _ _ _ A2 A3).
  Qed.
  Lemma le_cons n n' tr p q : views cls (insc (n, tr)) -> leN n n' -> le p q -> le ((n, tr) :: p) ((n', tr) :: q).
  Proof.
    intros V H1 H2 m m1 o m' G A R. unfold insc in V. simpl in V. apply views_app in V as [V1 V2].
    inversion R as [|n0 tr0 p0 m0 ma mb o0 mc X1 X2 X3|n0 tr0 p0 m0 o0 ma X1 Ho]; subst.
    - destruct (H1 _ _ _ _ G A X1) as (ma' & Y1 & A1). destruct (steps_meq _ _ _ _ X2 A1) as (mb' & Y2 & A2).
      assert (Ga : good cls ma) by exact (proj1 (exec_good cls) _ _ _ _ X1 V1 G).
      destruct (H2 _ _ _ _ (steps_good _ _ _ _ X2 V2 Ga) A2 X3) as (mc' & Y3 & A3). exists mc'. split; [econstructor; eassumption|exact A3].
    - destruct (H1 _ _ _ _ G A X1) as (ma' & Y1 & A1). exists ma'. split; [apply X_exit; assumption|exact A1].
  Qed.
  Lemma le_prefix r p q : views cls (accesses r) -> le p q -> le (r ++ p) (r ++ q).
  Proof.
    induction r as [|[n tr] r IH]; intros V H; [exact H|]. cbn [accesses flat_map] in V. apply views_app in V as [V1 V2].
    simpl. apply le_cons; [exact V1|apply leN_refl|apply IH; assumption].
  Qed.
  Lemma execs_app p r : forall m o m2, execs (p ++ r) m o m2 <-> (exists m1, execs p m Nxt m1 /\ execs r m1 o m2) \/ (o <> Nxt /\ execs p m o m2).
  Proof.
    induction p as [|[n tr] p IH]; intros m o m2; simpl.
    - split; [intros R; left; exists m; split; [constructor|exact R]|]. intros [(m1 & A & B)|[Ho A]]; inversion A; subst; [exact B|contradiction].
    - split.
      + intros R. inversion R as [|n0 tr0 p0 m0 ma mb o0 mc X1 X2 X3|n0 tr0 p0 m0 o0 ma X1 Ho]; subst.
        * apply IH in X3 as [(m1 & A & B)|[Ho A]].
          -- left. exists m1. split; [econstructor; eassumption|exact B].
          -- right. split; [exact Ho|econstructor; eassumption].
        * right. split; [exact Ho|apply X_exit; assumption].
      + intros [(m1 & A & B)|[Ho A]].
        * inversion A as [|n0 tr0 p0 m0 ma mb o0 mc X1 X2 X3|n0 tr0 p0 m0 o0 ma X1 Hn]; subst; [|contradiction].
          apply (X_cons _ _ _ _ ma mb); [assumption|assumption|]. apply IH. left. exists m1. split; assumption.
        * inversion A as [|n0 tr0 p0 m0 ma mb o0 mc X1 X2 X3|n0 tr0 p0 m0 o0 ma X1 Hn]; subst; [|apply X_exit; assumption].
          apply (X_cons _ _ _ _ ma mb); [assumption|assumption|]. apply IH. right. split; assumption.
  Qed.
  Lemma le_tail p q r : views cls (accesses p) -> le p q -> le (p ++ r) (q ++ r).
  Proof.
    intros V H m m1 o m' G A R. apply execs_app in R as [(m2 & R1 & R2)|[Ho R1]].
    - destruct (H _ _ _ _ G A R1) as (m2' & S1 & A1). destruct (le_refl r m2 m2' o m') as (m3 & S2 & A2);
        [exact (proj1 (proj2 (exec_good cls)) _ _ _ _ R1 V G)|exact A1|exact R2|].
      exists m3. split; [|exact A2]. apply execs_app. left. exists m2'. split; assumption.
    - destruct (H _ _ _ _ G A R1) as (m2' & S1 & A1). exists m2'. split; [|exact A1]. apply execs_app. right. split; assumption.
  Qed.

  (** The condition on the children of a sequence. *)
  Definition okc (c : child) : Prop := views cls (insc c) /\ match fst c with NBlk l => In l BB | _ => True end.
  Lemma okc_views l : Forall okc l -> views cls (accesses l).
  Proof. intros F y x e H. apply in_flat_map in H as (c & Hc & Hi). rewrite Forall_forall in F. exact (proj1 (F c Hc) y x e Hi). Qed.

  Lemma may_inv can c x : may can c x = true -> exists a b, c = (NBlk a, []) /\ x = (NBlk b, []) /\ (forall z, In z (names b) -> ~ In z (names a)) /\ can b = true.
  Proof.
    destruct c as [n ta], x as [n' tb]. destruct n as [a| | | | | |]; try discriminate. destruct n' as [b| | | | | |]; try discriminate. simpl.
    rewrite !andb_true_iff. intros ((((A & B) & C) & D) & _). destruct ta; [|discriminate]. destruct tb; [|discriminate].
    exists a, b. split; [reflexivity|]. split; [reflexivity|]. split; [|exact D]. rewrite forallb_forall in C. intros z Hz K. specialize (C z Hz).
    unfold inb in C. apply negb_true_iff in C. assert (E : existsb (String.eqb z) (names a) = true) by (apply existsb_exists; exists z; split; [exact K|apply String.eqb_refl]). congruence.
  Qed.
  Lemma execs2 a b m o m2 : execs [(NBlk a, []); (NBlk b, [])] m o m2 <-> o = Nxt /\ exists m1, steps a m m1 /\ steps b m1 m2.
  Proof.
    split.
    - intros R. inversion R as [|n0 tr0 p0 m0 ma mb o0 mc X1 X2 X3|n0 tr0 p0 m0 o0 ma X1 Hn]; subst; [|inversion X1; subst; contradiction].
      inversion X1; subst. inversion X2; subst.
      inversion X3 as [|n0 tr0 p0 m0 mc md o0 me Y1 Y2 Y3|n0 tr0 p0 m0 o0 mc Y1 Hn]; subst; [|inversion Y1; subst; contradiction].
      inversion Y1; subst. inversion Y2; subst. inversion Y3; subst. split; [reflexivity|]. eexists. split; eassumption.
    - intros (-> & m1 & A & B). apply (X_cons _ _ _ _ m1 m1); [constructor; exact A|constructor|].
      apply (X_cons _ _ _ _ m2 m2); [constructor; exact B|constructor|constructor].
  Qed.
  Lemma le_swaps a b : (forall m m1 m2, good cls m -> steps a m m1 -> steps b m1 m2 -> swaps a b m m2) -> le [(NBlk a, []); (NBlk b, [])] [(NBlk b, []); (NBlk a, [])].
  Proof.
    intros H m m' o m2 G A R. apply execs2 in R as (-> & m1 & R1 & R2). destruct (H _ _ _ G R1 R2) as (ma & mb & S1 & S2 & E).
    destruct (le_refl [(NBlk b, []); (NBlk a, [])] m m' Nxt mb G A) as (mc & S & E2); [apply execs2; split; [reflexivity|]; eauto|].
    exists mc. split; [exact S|]. exact (agree_trans _ _ _ _ _ E E2).
  Qed.
  Lemma le_up c x : okc c -> okc x -> may can_up c x = true -> le [c; x] [x; c].
  Proof.
    intros [_ Oc] [_ Ox] M. apply may_inv in M as (a & b & -> & -> & D & U). simpl in Oc, Ox. apply le_swaps. intros m m1 m2 G R1 R2.
    destruct b as [|i [|]]; try discriminate; [|destruct i; discriminate].
    assert (D1 : forall z, In z (names1 i) -> ~ In z (names a)) by (intros z Hz; apply D; simpl; rewrite app_nil_r; exact Hz).
    apply steps1 in R2. destruct i as [| | |y x e|x k n| |x v n]; try discriminate.
    - exact (swap_view _ _ _ _ _ _ _ R1 R2 D1).
    - exact (swap_new _ _ _ _ _ _ _ (proj1 G) R1 R2 D1).
    - apply (swap_fill _ _ _ _ cls _ _ _ G R1 R2 D1). exact (fills a x v n Oc Ox D1).
  Qed.
  Lemma le_down c x : okc c -> okc x -> may can_down c x = true -> le [x; c] [c; x].
  Proof.
    intros _ _ M. apply may_inv in M as (a & b & -> & -> & D & U). apply le_swaps. intros m m1 m2 G R1 R2.
    destruct b as [|i [|]]; try discriminate; [|destruct i; discriminate]. destruct i as [| | | | |x|]; try discriminate.
    apply steps1 in R1. apply (swap_free _ _ _ _ _ (proj1 G) R1 R2). apply D. simpl. auto.
  Qed.
  Lemma Forall_ins_up (P : child -> Prop) x acc : P x -> Forall P acc -> Forall P (ins_up x acc).
  Proof.
    intros Hx H. induction H as [|c acc Hc H IH]; simpl; [constructor; [exact Hx|constructor]|].
    destruct (may can_up c x); constructor; auto.
  Qed.
  Lemma Forall_ins_down (P : child -> Prop) x acc : P x -> Forall P acc -> Forall P (ins_down x acc).
  Proof.
    intros Hx H. induction H as [|c acc Hc H IH]; simpl; [constructor; [exact Hx|constructor]|].
    destruct (may can_down c x); constructor; auto.
  Qed.
  Lemma le_ins_up x acc : okc x -> Forall okc acc -> le (rev acc ++ [x]) (rev (ins_up x acc)).
  Proof.
    intros Hx H. induction H as [|c acc Hc H IH]; simpl; [apply le_refl|]. destruct (may can_up c x) eqn:M; [|simpl; apply le_refl].
    simpl. rewrite <- app_assoc. simpl. apply le_trans with (rev acc ++ [x; c]).
    - apply le_prefix; [apply okc_views, Forall_rev, H|]. apply le_up; assumption.
    - change [x; c] with ([x] ++ [c]). rewrite app_assoc. apply le_tail; [|exact IH]. apply okc_views, Forall_app. split; [apply Forall_rev, H|constructor; [exact Hx|constructor]].
  Qed.
  Lemma le_ins_down x r : okc x -> Forall okc r -> le (x :: r) (ins_down x r).
  Proof.
    intros Hx H. induction H as [|c r Hc H IH]; simpl; [apply le_refl|]. destruct (may can_down c x) eqn:M; [|apply le_refl].
    apply le_trans with (c :: x :: r).
    - change (le ([x; c] ++ r) ([c; x] ++ r)). apply le_tail; [apply okc_views; repeat constructor; (apply Hx || apply Hc)|]. apply le_down; assumption.
    - destruct c as [n tr]. apply le_cons; [exact (proj1 Hc)|apply leN_refl|exact IH].
  Qed.
  Lemma le_downs l : Forall okc l -> le l (fold_right ins_down [] l) /\ Forall okc (fold_right ins_down [] l).
  Proof.
    intros H. induction H as [|c l Hc H [IH IH2]]; simpl; [split; [apply le_refl|constructor]|]. split; [|apply Forall_ins_down; assumption].
    apply le_trans with (c :: fold_right ins_down [] l); [|apply le_ins_down; assumption].
    destruct c as [n tr]. apply le_cons; [exact (proj1 Hc)|apply leN_refl|exact IH].
  Qed.
  Lemma le_up_loop f p : Forall (fun c => okc c /\ okc (f (fst c), snd c) /\ leN (fst c) (f (fst c))) p -> forall acc, Forall okc acc ->
    le (rev acc ++ p) (rev (fst (up_loop f acc p)) ++ snd (up_loop f acc p)) /\ Forall okc (fst (up_loop f acc p)).
  Proof.
    intros H. induction H as [|[n tr] p (O1 & O2 & L) H IH]; intros acc Ha; cbn [up_loop fst snd].
    - split; [apply le_refl|exact Ha].
    - simpl in O2, L. destruct (jump n) eqn:J; cbn [fst snd].
      + split; [|constructor; assumption]. simpl. rewrite <- app_assoc. apply le_refl.
      + destruct (IH (ins_up (f n, tr) acc)) as [A B]; [apply Forall_ins_up; assumption|]. split; [|exact B].
        eapply le_trans; [|exact A]. apply le_trans with (rev acc ++ (f n, tr) :: p).
        * apply le_prefix; [apply okc_views, Forall_rev, Ha|]. apply le_cons; [exact (proj1 O1)|exact L|apply le_refl].
        * change ((f n, tr) :: p) with ([(f n, tr)] ++ p). rewrite app_assoc. apply le_tail; [|apply le_ins_up; assumption].
          apply okc_views, Forall_app. split; [apply Forall_rev, Ha|constructor; [exact O2|constructor]].
  Qed.
  Lemma le_sort_with f p : Forall (fun c => okc c /\ okc (f (fst c), snd c) /\ leN (fst c) (f (fst c))) p -> le p (sort_with f p).
  Proof.
    intros H. destruct (le_up_loop f p H [] (Forall_nil _)) as [A B]. unfold sort_with. destruct (up_loop f [] p) as [a r]. simpl in A, B.
    eapply le_trans; [exact A|]. apply le_tail; [apply okc_views, Forall_rev, B|]. apply le_downs, Forall_rev, B.
  Qed.

  (** Sorting keeps the children. *)
  Lemma in_ins_up y x acc : In y (ins_up x acc) -> y = x \/ In y acc.
  Proof.
    induction acc as [|c acc IH]; simpl; [intros [E|[]]; auto|]. destruct (may can_up c x); simpl; [|intros [E|[E|E]]; auto].
    intros [E|E]; [auto|]. destruct (IH E); auto.
  Qed.
  Lemma in_ins_down y x acc : In y (ins_down x acc) -> y = x \/ In y acc.
  Proof.
    induction acc as [|c acc IH]; simpl; [intros [E|[]]; auto|]. destruct (may can_down c x); simpl; [|intros [E|[E|E]]; auto].
    intros [E|E]; [auto|]. destruct (IH E); auto.
  Qed.
  Lemma in_downs y l : In y (fold_right ins_down [] l) -> In y l.
  Proof. induction l as [|c l IH]; simpl; [auto|]. intros H. apply in_ins_down in H as [->|H]; auto. Qed.
  Definition from (f : node -> node) (p : list child) (y : child) : Prop := exists c, In c p /\ (y = c \/ y = (f (fst c), snd c)).
  Lemma in_up_loop f y p : forall acc, In y (fst (up_loop f acc p)) \/ In y (snd (up_loop f acc p)) -> In y acc \/ from f p y.
  Proof.
    induction p as [|[n tr] p IH]; intros acc; cbn [up_loop]; [simpl; tauto|]. destruct (jump n); cbn [fst snd].
    - intros [[<-|H]|H]; [right; exists (n, tr); simpl; auto|auto|right; exists y; simpl; auto].
    - intros H. apply IH in H as [H|(c & Hc & E)].
      + apply in_ins_up in H as [->|H]; [right; exists (n, tr); simpl; auto|auto].
      + right. exists c. simpl. auto.
  Qed.
  Lemma in_sort_with f p y : In y (sort_with f p) -> from f p y.
  Proof.
    unfold sort_with. pose proof (in_up_loop f y p []) as K. destruct (up_loop f [] p) as [a r]. simpl in K. intros H. apply in_app_iff in H as [H|H].
    - apply in_downs in H. apply in_rev in H. destruct (K (or_introl H)) as [[]|F]. exact F.
    - destruct (K (or_intror H)) as [[]|F]. exact F.
  Qed.
  Definition keep (n : node) : Prop := forall i, In i (ins_of (sort_node n)) -> In i (ins_of n).
  Lemma keep_list p : Forall (fun c => keep (fst c)) p -> forall i, In i (accesses (sort_with sort_node p)) -> In i (accesses p).
  Proof.
    intros F i H. apply in_flat_map in H as (y & Hy & Hi). apply in_sort_with in Hy as (c & Hc & E). rewrite Forall_forall in F. specialize (F c Hc).
    apply in_flat_map. exists c. split; [exact Hc|]. destruct E as [->| ->]; [exact Hi|]. unfold insc in *. simpl in Hi.
    apply in_app_iff in Hi as [Hi|Hi]; apply in_app_iff; [left; apply F, Hi|right; exact Hi].
  Qed.
  Lemma keep_all n : keep n.
  Proof.
    induction n using node_ind'; intros ii Hii; auto.
    - exact (keep_list p H ii Hii).
    - change (In ii (accesses (sort_with sort_node p) ++ accesses (sort_with sort_node q))) in Hii. change (In ii (accesses p ++ accesses q)).
      apply in_app_iff in Hii as [K|K]; apply in_app_iff; [left; exact (keep_list p H ii K)|right; exact (keep_list q H0 ii K)].
    - change (In ii (i ++ u ++ accesses (sort_with sort_node p))) in Hii. change (In ii (i ++ u ++ accesses p)).
      rewrite !in_app_iff in *. destruct Hii as [K|[K|K]]; auto. right. right. exact (keep_list p H ii K).
  Qed.

  Lemma le_loop i c u p q : views cls (i ++ u ++ accesses p) -> le p q -> leN (NLoop i c u p) (NLoop i c u q).
  Proof.
    intros V L m m' o m2 G A R. apply views_app in V as [V1 V2]. inversion R as [| | |i0 c0 u0 p0 m0 m1 o0 m3 R1 R2| | |]; subst.
    destruct (steps_meq _ _ _ _ R1 A) as (m1' & S1 & A1). pose proof (steps_good _ _ _ _ R1 V1 G) as G1.
    assert (K : forall c u p m o m', iter c u p m o m' -> forall p', views cls (u ++ accesses p) -> le p p' -> forall m1, good cls m -> meq m m1 ->
      exists m'', iter c u p' m1 o m'' /\ meq m' m'').
    { clear. intros c u p m o m' R. induction R as [c u p m Ec|c u p m o1 m1 m2 o m3 Ec R1 Ho R2 R3 IH|c u p m m1 Ec R1|c u p m m1 Ec R1]; intros p' V L mm G A.
      - exists mm. split; [apply T_stop; rewrite (cev_meq _ _ c A); exact Ec|exact A].
      - destruct (L _ _ _ _ G A R1) as (m1' & S1 & A1). destruct (steps_meq _ _ _ _ R2 A1) as (m2' & S2 & A2).
        pose proof V as W. apply views_app in W as [Vu Vp].
        assert (G2 : good cls m2) by (apply (steps_good _ _ _ _ R2 Vu); exact (proj1 (proj2 (exec_good cls)) _ _ _ _ R1 Vp G)).
        destruct (IH p' V L m2' G2 A2) as (m3' & S3 & A3). exists m3'. split; [|exact A3].
        eapply T_again; [rewrite (cev_meq _ _ c A); exact Ec|exact S1|exact Ho|exact S2|exact S3].
      - destruct (L _ _ _ _ G A R1) as (m1' & S1 & A1). exists m1'. split; [apply T_break; [rewrite (cev_meq _ _ c A); exact Ec|exact S1]|exact A1].
      - destruct (L _ _ _ _ G A R1) as (m1' & S1 & A1). exists m1'. split; [apply T_return; [rewrite (cev_meq _ _ c A); exact Ec|exact S1]|exact A1]. }
    destruct (K _ _ _ _ _ _ R2 q V2 L m1' G1 A1) as (m2' & S2 & A2). exists m2'. split; [econstructor; eassumption|exact A2].
  Qed.
  Definition okn (n : node) : Prop := views cls (ins_of n) /\ incl (blocks_of n) BB.
  Lemma okn_children p : views cls (accesses p) -> incl (blocks p) BB -> forall c, In c p -> okn (fst c) /\ okc c /\ okc (sort_node (fst c), snd c).
  Proof.
    intros V B c Hc. assert (V1 : views cls (insc c)) by (intros y x e H; apply (V y x e), in_flat_map; eauto).
    assert (B1 : incl (blocks_of (fst c)) BB) by (intros b Hb; apply B, in_flat_map; eauto).
    unfold insc in V1. apply views_app in V1 as [V1 V2]. split; [split; assumption|]. split.
    - split; [apply views_app; split; assumption|]. destruct (fst c) as [l| | | | | |]; auto. apply B1. left. reflexivity.
    - split.
      + apply views_app. simpl. split; [|exact V2]. intros y x e H. apply (V1 y x e). exact (keep_all _ _ H).
      + simpl. destruct (fst c) as [l| | | | | |]; simpl; auto. apply B1. left. reflexivity.
  Qed.
  Lemma le_list p : Forall (fun c => okn (fst c) -> leN (fst c) (sort_node (fst c))) p -> views cls (accesses p) -> incl (blocks p) BB -> le p (sort_with sort_node p).
  Proof.
    intros F V B. apply le_sort_with. apply Forall_forall. intros c Hc. rewrite Forall_forall in F. destruct (okn_children p V B c Hc) as (A & A1 & A2).
    split; [exact A1|]. split; [exact A2|]. apply F; assumption.
  Qed.
  Theorem leN_sort n : okn n -> leN n (sort_node n).
  Proof.
    induction n using node_ind'; intros [V B]; try apply leN_refl.
    - intros m m1 o m' G A R. inversion R as [|p0 m0 o0 m2 X| | | | |]; subst. destruct (le_list p H V B _ _ _ _ G A X) as (m2 & S & E).
      exists m2. split; [constructor; exact S|exact E].
    - change (views cls (accesses p ++ accesses q)) in V. change (incl (blocks p ++ blocks q) BB) in B. apply views_app in V as [V1 V2]. apply incl_app_inv in B as [B1 B2].
      intros m m1 o m' G A R. inversion R as [| |c0 p0 q0 m0 t o0 m2 Ec X| | | |]; subst.
      destruct t.
      + destruct (le_list p H V1 B1 _ _ _ _ G A X) as (m2 & S & E). exists m2. split; [|exact E]. apply X_if with true; [rewrite (cev_meq _ _ c A); exact Ec|exact S].
      + destruct (le_list q H0 V2 B2 _ _ _ _ G A X) as (m2 & S & E). exists m2. split; [|exact E]. apply X_if with false; [rewrite (cev_meq _ _ c A); exact Ec|exact S].
    - change (views cls (i ++ u ++ accesses p)) in V. change (incl (blocks p) BB) in B. simpl. apply le_loop; [exact V|]. apply le_list; [exact H| |exact B].
      apply views_app in V as [_ V]. apply views_app in V as [_ V]. exact V.
  Qed.
  Theorem le_sort p : views cls (accesses p) -> incl (blocks p) BB -> le p (sort p).
  Proof. intros V B. apply le_list; [|exact V|exact B]. apply Forall_forall. intros c _. apply leN_sort. Qed.
End Sim.

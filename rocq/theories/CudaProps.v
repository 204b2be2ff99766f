(** C66: CUDA kernels. Every iteration of a nest of CUDA maps is executed by exactly
    one thread, and every interleaving of the threads of a kernel whose iterations
    are independent gives the result of the sequential loops. *)
From Coq Require Import Permutation.
From Verif Require Import Sym SymFacts SymFuns Lin IR IRFacts IRRefine PassCFG LoopAnaProofs PassCFGProps LoopTile LoopIter LoopProps Trace Reorder DepAna DepProofs Par ParProofs ParProps Cuda CudaProofs.

(* ======================= specification ======================= *)
(** The points of the index space with [Ns] iterations per level, in the order of
    the sequential loops. *)
Definition space (Ns : list Z) : list (list Z) := prod (map upto Ns).
(** the loop of level [l] has [n] iterations (none if [n <= 0]) in memory [st] *)
Definition has_iterations (st : store) (l : level) (n : Z) : Prop :=
  forall v, 0 <= v -> cev (upd (env_of st) (l_i l) v) (l_c l) = Some (v <? n).
(** Iterations [t] and their accesses when each is executed alone: they do not
    communicate through shared containers, and write private ones before reading. *)
Definition independent_points I priv (vars : list string) (body : seq) (st : store) (ts : list (list Z)) : Prop := exists L : list Z -> trace,
  (forall t, In t ts -> exists b, runsT I body (setv vars t st) ONorm b (L t)) /\
  (forall t t', In t ts -> In t' ts -> t <> t' -> apart priv (L t) (L t')) /\
  (forall t x j, In t ts -> priv x = true -> ~ (In x vars /\ j = []) -> ~ exposed (L t) x j).
(** The kernel [k] launched with the threads [g] from [st] is correct w.r.t. the
    sequential result [st']: whatever the uninitialised private memories hold and
    however the accesses of the threads are interleaved, no thread fails or gets
    stuck, the kernel ends, there is no data race, and the shared memory at the end
    is that of [st']. *)
Definition kernel_correct I priv ms (k : seq) (g : list (list Z)) (st st' : store) : Prop :=
  forall ws : list (store * list seq), map snd ws = map (fun xs => [thread_program ms k xs]) g ->
  exists N, forall n gm ts, psteps I priv n (st, start ws) (gm, ts) ->
    (n <= N)%nat /\ (n = N <-> Forall finished ts) /\
    (forall t, In t ts -> finished t \/ exists ev g' t', fire I priv gm t = Some (ev, g', t')) /\
    ~ racing I priv gm ts /\
    (Forall finished ts -> forall x j, priv x = false -> gm x j = st' x j).

(* ======================= theorems ======================= *)
(** One dimension: with a block size of at least one and no more than 2^31 threads,
    the threads that pass the test are exactly the iterations, each once. *)
Theorem C66_coverage : forall (closed : bool) (n bs : Z), 1 <= bs -> bs * num_blocks closed n bs <= 2 ^ 31 ->
  filter (fun v => v <? n) (coords bs (num_blocks closed n bs)) = upto n /\ NoDup (coords bs (num_blocks closed n bs)).
Proof.
  intros closed n bs Hb HO. destruct (num_blocks_enough closed n bs Hb) as (H1 & H2). rewrite coords_upto by lia. split; [apply filter_upto; exact H2|apply upto_nodup].
Qed.
Theorem C66_index_space : forall Ns t, In t (space Ns) <-> Forall2 (fun v n => 0 <= v < n) t Ns.
Proof.
  intros Ns t. unfold space. rewrite in_prod. split; intros H.
  - remember (map upto Ns) as l eqn:E. revert Ns E. induction H as [|v r t l Hv H IH]; intros [|n Ns] E; try discriminate; [constructor|]. injection E as -> ->.
    constructor; [apply in_upto; exact Hv|auto].
  - induction H; cbn [map]; constructor; [apply in_upto; assumption|assumption].
Qed.
(** Beyond 2^31 threads the coordinates (of type int) wrap around, and a thread
    with a negative coordinate passes the test. *)
Theorem C66_int_overflow_refuted : exists n bs v, 1 <= bs /\ In v (coords bs (num_blocks true n bs)) /\ (v <? n) = true /\ ~ (0 <= v < n).
Proof.
  exists (2 ^ 31 + 1), 2, (- 2 ^ 31). assert (E: num_blocks true (2 ^ 31 + 1) 2 = 2 ^ 30 + 1) by (vm_compute; reflexivity). rewrite E. split; [lia|]. split; [|split; [reflexivity|lia]].
  unfold coords. apply in_flat_map. exists (2 ^ 30). split; [apply in_upto; lia|]. apply in_map_iff. exists 0. split; [vm_compute; reflexivity|]. apply in_upto. lia.
Qed.

Lemma find_unique (order : list (string * csched * option expr)) m : In m order ->
  (forall p q, In p order -> In q order -> c_dim (snd (fst p)) = c_dim (snd (fst q)) -> p = q) ->
  find (fun x => Nat.eqb (c_dim (snd (fst x))) (c_dim (snd (fst m)))) order = Some m.
Proof.
  induction order as [|p l IH]; intros Hm U; [elim Hm|]. cbn [find]. destruct (Nat.eqb_spec (c_dim (snd (fst p))) (c_dim (snd (fst m)))) as [E|N].
  - f_equal. apply U; [left; reflexivity|exact Hm|exact E].
  - destruct Hm as [->|Hm]; [congruence|]. apply IH; [exact Hm|]. intros; apply U; try (right; assumption). assumption.
Qed.
Lemma upto_same n m : (forall v, 0 <= v -> (v <? n) = (v <? m)) -> upto n = upto m.
Proof.
  intros H. destruct (Z.le_gt_cases n 0) as [Hn|Hn].
  - rewrite upto_0 by lia. pose proof (H 0 ltac:(lia)). rewrite upto_0 by lia. reflexivity.
  - destruct (Z.le_gt_cases m 0) as [Hm|Hm]; [pose proof (H 0 ltac:(lia)); lia|]. f_equal. pose proof (H n ltac:(lia)). pose proof (H m ltac:(lia)). lia.
Qed.

Section Launch.
  Variables (ds : list dimension) (st : store) (order : list (string * csched * option expr)).
  Hypothesis PO : Permutation order (map cmap_of ds).
  Hypothesis UD : forall d d', In d ds -> In d' ds -> c_dim (d_sc d) = c_dim (d_sc d') -> d = d'.
  Hypothesis D3 : forall d, In d ds -> (c_dim (d_sc d) < 3)%nat /\ 1 <= c_bs (d_sc d).
  Hypothesis OV : forall k b n, launch order st k = Some (b, n) -> b * n <= 2 ^ 31.
  Lemma launch_at d : In d ds -> forall b n, launch order st (c_dim (d_sc d)) = Some (b, n) ->
    exists m, eval (env_of st) (d_b d) = Some m /\ coords b n = upto (b * n) /\ m <= b * n.
  Proof.
    intros Hd b n H. pose proof (OV _ _ _ H) as HO. unfold launch in H.
    assert (Q: find (fun x => Nat.eqb (c_dim (snd (fst x))) (c_dim (d_sc d))) order = Some (cmap_of d)).
    { apply (find_unique order (cmap_of d)).
      - eapply Permutation_in; [apply Permutation_sym; exact PO|apply in_map; exact Hd].
      - intros p q Hp Hq E. apply (Permutation_in _ PO) in Hp, Hq. apply in_map_iff in Hp as (d1 & <- & H1). apply in_map_iff in Hq as (d2 & <- & H2). f_equal. apply UD; auto. }
    rewrite Q in H. cbn [cmap_of] in H. destruct (eval (env_of st) (d_b d)) as [m|]; [|discriminate]. injection H as <- <-. destruct (D3 d Hd) as (_ & Hb). exists m. split; [reflexivity|].
    match goal with |- context [num_blocks ?c m ?x] => destruct (num_blocks_enough c m x Hb) as (H1 & H2) end. split; [apply coords_upto; lia|exact H2].
  Qed.
  Lemma launch_none k : (forall d, In d ds -> c_dim (d_sc d) <> k) -> launch order st k = Some (1, 1).
  Proof.
    intros H. unfold launch. destruct (find _ order) as [m|] eqn:E; [|reflexivity]. apply find_some in E as (E1 & E2). apply Nat.eqb_eq in E2.
    apply (Permutation_in _ PO) in E1. apply in_map_iff in E1 as (d & <- & Hd). elim (H d Hd E2).
  Qed.
  Lemma dim_dec k : (exists d, In d ds /\ c_dim (d_sc d) = k) \/ (forall d, In d ds -> c_dim (d_sc d) <> k).
  Proof.
    clear. induction ds as [|d l [(e & He & E)|H]]; [right; intros d []|left; exists e; split; [right; exact He|exact E]|].
    destruct (Nat.eq_dec (c_dim (d_sc d)) k) as [E|E]; [left; exists d; split; [left; reflexivity|exact E]|right]. intros e [<-|He]; auto.
  Qed.
  Lemma launch_upto k b n : launch order st k = Some (b, n) -> exists m, coords b n = upto m /\ 1 <= m.
  Proof.
    intros H. destruct (dim_dec k) as [(d & Hd & <-)|N].
    - exists (b * n). destruct (launch_at d Hd b n H) as (m & _ & E & _). split; [exact E|].
      unfold launch in H. destruct (find _ order) as [[[i sc] [e|]]|] eqn:F; try discriminate; [|injection H as <- <-; lia].
      destruct (eval (env_of st) e) as [z|]; [|discriminate]. injection H as <- <-. apply find_some in F as (F & _). apply (Permutation_in _ PO) in F. apply in_map_iff in F as (d' & Ed & Hd').
      injection Ed as _ Esc _. rewrite <- Esc. destruct (D3 d' Hd') as (_ & Hb). match goal with |- context [num_blocks ?c ?m ?x] => destruct (num_blocks_enough c m x Hb) as (H1 & H2) end. nia.
    - rewrite (launch_none k N) in H. injection H as <- <-. exists 1. split; [reflexivity|lia].
  Qed.
  Variable g : list (list Z).
  Hypothesis HG : grid order st = Some g.
  Lemma grid_sizes : exists a b c, g = prod [upto a; upto b; upto c] /\ 1 <= a /\ 1 <= b /\ 1 <= c /\
    (forall d m, In d ds -> eval (env_of st) (d_b d) = Some m -> m <= nth (c_dim (d_sc d)) [a; b; c] 0) /\
    (forall d, In d ds -> exists m, eval (env_of st) (d_b d) = Some m) /\
    (forall k, (k < 3)%nat -> (forall d, In d ds -> c_dim (d_sc d) <> k) -> nth k [a; b; c] 0 = 1).
  Proof.
    unfold grid in HG. destruct (launch order st 0) as [[b0 n0]|] eqn:E0; [|discriminate]. destruct (launch order st 1) as [[b1 n1]|] eqn:E1; [|discriminate].
    destruct (launch order st 2) as [[b2 n2]|] eqn:E2; [|discriminate]. injection HG as <-.
    assert (U: forall n m, 1 <= n -> 1 <= m -> upto n = upto m -> n = m).
    { intros n m Hn Hm E. destruct (Z.lt_trichotomy n m) as [K|[K|K]]; [|exact K|].
      - assert (In n (upto m)) by (apply in_upto; lia). rewrite <- E in H. apply in_upto in H. lia.
      - assert (In m (upto n)) by (apply in_upto; lia). rewrite E in H. apply in_upto in H. lia. }
    destruct (launch_upto 0 _ _ E0) as (a & A1 & A2). destruct (launch_upto 1 _ _ E1) as (b & B1 & B2). destruct (launch_upto 2 _ _ E2) as (c & C1 & C2).
    assert (AT: forall k m b n, launch order st k = Some (b, n) -> coords b n = upto m -> 1 <= m ->
      (forall d, In d ds -> c_dim (d_sc d) = k -> exists z, eval (env_of st) (d_b d) = Some z /\ z <= m) /\ ((forall d, In d ds -> c_dim (d_sc d) <> k) -> m = 1)).
    { intros k m bb nn E F Hm. split.
      - intros d Hd <-. destruct (launch_at d Hd _ _ E) as (z & K1 & K2 & K3). exists z. split; [exact K1|]. rewrite F in K2. 
        destruct (Z.le_gt_cases (bb * nn) 0); [lia|]. rewrite (U m (bb * nn)) by (auto; lia). exact K3.
      - intros N. rewrite (launch_none k N) in E. injection E as <- <-. symmetry. apply U; auto; lia. }
    pose proof (AT _ _ _ _ E0 A1 A2) as (P0 & Q0). pose proof (AT _ _ _ _ E1 B1 B2) as (P1 & Q1). pose proof (AT _ _ _ _ E2 C1 C2) as (P2 & Q2).
    exists a, b, c. rewrite A1, B1, C1. split; [reflexivity|]. do 3 (split; [assumption|]).
    assert (ALL: forall d, In d ds -> exists z, eval (env_of st) (d_b d) = Some z /\ z <= nth (c_dim (d_sc d)) [a; b; c] 0).
    { intros d Hd. destruct (D3 d Hd) as (K & _). destruct (c_dim (d_sc d)) as [|[|[|k]]] eqn:Ed; [apply P0|apply P1|apply P2|lia]; auto. }
    split; [|split].
    - intros d m Hd Em. destruct (ALL d Hd) as (z & Ez & K). rewrite Em in Ez. injection Ez as <-. exact K.
    - intros d Hd. destruct (ALL d Hd) as (z & Ez & _). eauto.
    - intros [|[|[|k]]] Hk N; [apply Q0|apply Q1|apply Q2|lia]; exact N.
  Qed.
End Launch.

(** A nest of CUDA maps with one map per dimension and independent iterations: the
    sequential loops end, and so does the kernel, with the same shared memory.
    [order]: the hash-table order in which the launch configuration looks at the
    maps. Hypotheses: no test is omitted, no overflow of int (C66_coverage), the
    body does not write the loop variables, the numbers of iterations do not depend
    on the loop variables or on what the body writes, iterations are independent. *)
Theorem C66_any_interleaving : forall I A cuda transient outside ls body st Ns k order g,
  let ms := cmapsS A cuda (nest ls body) in let vars := map l_i ls in let priv := cuda_private transient outside ms in
  ls <> [] -> NoDup vars -> cmapsS A cuda body = [] ->
  (forall l, In l ls -> exists sc, cuda (l_i l) = Some sc /\ c_sync sc = false /\ 1 <= c_bs sc /\ (c_dim sc < 3)%nat) ->
  (forall l l' sc sc', In l ls -> In l' ls -> cuda (l_i l) = Some sc -> cuda (l_i l') = Some sc' -> c_dim sc = c_dim sc' -> l = l') ->
  kernS A cuda (nest ls body) = Some k -> Permutation order ms -> grid order st = Some g ->
  (forall d b n, launch order st d = Some (b, n) -> b * n <= 2 ^ 31) ->
  Forall2 (has_iterations st) ls Ns ->
  (forall l, In l ls -> ~ In (l_i l) (swrites body)) ->
  (forall l x, In l ls -> In x (catoms (l_c l)) -> ~ In x (swrites body) /\ (In x vars -> x = l_i l)) ->
  (forall i sc b x, In (i, sc, Some b) ms -> In x (atoms b) -> ~ In x vars /\ ~ In x (swrites body) /\ priv x = false) ->
  independent_points I priv vars body st (space Ns) ->
  exists st', runs I (nest ls body) st ONorm st' /\ kernel_correct I priv ms k g st st'.
Proof.
  intros I A cuda tr out ls body st Ns k order g ms vars priv NE ND NB SC UD HK PO HG OV IT NW CA BA (L & LE & LA & LX).
  destruct (nest_dims A cuda st body ls NB) with (k := k) as (ds & Els & -> & Ems & FD); [intros l Hl; destruct (SC l Hl) as (sc & ? & ? & _); eauto|exact HK|].
  fold ms in Ems. rewrite Forall_forall in FD.
  assert (DS: forall d, In d ds -> In (d_l d) ls) by (intros d Hd; rewrite <- Els; apply in_map; exact Hd).
  assert (VD: map d_i ds = vars). { unfold vars. rewrite <- Els. rewrite map_map. reflexivity. }
  (* schedules of the dimensions *)
  assert (CS: forall d, In d ds -> cuda (d_i d) = Some (d_sc d)).
  { assert (Q: forall m, In m ms -> exists l, In l ls /\ cuda (fst (fst m)) = Some (snd (fst m))).
    { unfold ms. clear - NB. induction ls as [|l ls IH]; intros m Hm; [cbn [nest] in Hm; rewrite NB in Hm; elim Hm|].
      cbn [nest cmapsS cmapsN] in Hm. fold (cmapsS A cuda (nest ls body)) in Hm. rewrite app_nil_r in Hm. apply in_app_iff in Hm as [Hm|Hm].
      - destruct (cuda (l_i l)) as [sc|] eqn:E; [|elim Hm]. destruct Hm as [<-|[]]. exists l. split; [left; reflexivity|]. cbn [fst snd]. exact E.
      - destruct (IH m Hm) as (l' & H1 & H2). exists l'. split; [right; exact H1|exact H2]. }
    intros d Hd. destruct (Q (cmap_of d)) as (l & _ & E); [rewrite Ems; apply in_map; exact Hd|]. exact E. }
  assert (UD': forall d d', In d ds -> In d' ds -> c_dim (d_sc d) = c_dim (d_sc d') -> d = d').
  { intros d d' Hd Hd' E. assert (El: d_l d = d_l d') by (eapply UD; eauto; apply CS; assumption).
    pose proof (CS d Hd) as C1. pose proof (CS d' Hd') as C2. unfold d_i in C1, C2. rewrite El in C1. rewrite C1 in C2.
    destruct (FD d Hd) as (F1 & F2). destruct (FD d' Hd') as (F3 & F4). unfold d_i in F1, F3. rewrite El in F1. rewrite F1 in F3. injection F3 as Eb. injection C2 as Es.
    destruct d as [l1 s1 e1 n1], d' as [l2 s2 e2 n2]. cbn in *. subst. reflexivity. }
  assert (D3: forall d, In d ds -> (c_dim (d_sc d) < 3)%nat /\ 1 <= c_bs (d_sc d)).
  { intros d Hd. destruct (SC (d_l d) (DS d Hd)) as (sc & E1 & _ & E3 & E4). pose proof (CS d Hd) as C1. unfold d_i in C1. rewrite E1 in C1. injection C1 as <-. auto. }
  rewrite Ems in PO. destruct (grid_sizes ds st order PO UD' D3 OV g HG) as (a & b & c & Eg & Ha & Hb & Hc & LEQ & EVB & ONE).
  assert (EB: forall d, In d ds -> eval (env_of st) (d_b d) = Some (d_n d)).
  { intros d Hd. destruct (EVB d Hd) as (m & Em). destruct (FD d Hd) as (_ & ->). rewrite Em. reflexivity. }
  assert (BX: forall d x, In d ds -> In x (atoms (d_b d)) -> ~ In x vars /\ ~ In x (swrites body) /\ priv x = false).
  { intros d x Hd Hx. apply (BA (d_i d) (d_sc d) (d_b d)); [|exact Hx]. rewrite Ems. apply in_map_iff. exists d. auto. }
  (* the numbers of iterations are the values of the bounds *)
  assert (CNT: forall d n, In d ds -> has_iterations st (d_l d) n -> forall v, 0 <= v -> (v <? n) = (v <? d_n d)).
  { intros d n Hd H v Hv. specialize (H v Hv). destruct (FD d Hd) as (F1 & _). unfold iterations in F1. cbn [expr_eqb] in F1. rewrite Z.eqb_refl in F1.
    destruct (stride (d_i d) (l_u (d_l d))) as [z|]; [|discriminate]. destruct z as [|p|p]; try discriminate. destruct p; try discriminate.
    apply (canonical_bound_sound _ _ _ _ _ _ F1) in H.
    assert (E: ev (upd (env_of st) (l_i (d_l d)) v) (d_b d) = Fin (d_n d)).
    { pose proof (EB d Hd) as Q. unfold eval in Q. destruct (ev (env_of st) (d_b d)) as [z| | |] eqn:Ez; try discriminate. injection Q as <-. rewrite <- Ez. apply ev_agree.
      intros x Hx. unfold upd. destruct (String.eqb_spec (l_i (d_l d)) x) as [Q|_]; [|reflexivity]. destruct (BX d x Hd Hx) as (K & _). elim K. rewrite <- Q. apply in_map. apply DS. exact Hd. }
    cbn [cev ev] in H. rewrite E in H. unfold upd in H. unfold d_i in H. rewrite String.eqb_refl in H. cbn [xleb onegb] in H. injection H as H. rewrite <- H, <- Z.ltb_antisym. reflexivity. }
  assert (SP: space Ns = tuples ds).
  { unfold space, tuples. f_equal. rewrite <- Els in IT. clear - IT CNT. revert Ns IT. induction ds as [|d es IH]; intros Ns IT; inversion IT; subst; [reflexivity|]. cbn [map]. f_equal.
    - apply upto_same. apply (CNT d); [left; reflexivity|assumption].
    - apply IH; [|assumption]. intros d' n' Hd' Hn'. apply (CNT d' n'); [right; exact Hd'|exact Hn']. }
  assert (EM: forall d, In d ds -> In (cmap_of d) ms) by (intros d Hd; rewrite Ems; apply in_map; exact Hd).
  assert (PV: forall x, In x vars -> priv x = true).
  { intros x Hx. unfold priv, cuda_private. apply orb_true_iff. left. apply existsb_exists. rewrite <- VD in Hx. apply in_map_iff in Hx as (d & <- & Hd). exists (cmap_of d). split; [apply EM; exact Hd|apply String.eqb_refl]. }
  assert (GN: forall xs, In xs g -> forall v, In v xs -> 0 <= v).
  { intros xs Hx v Hv. rewrite Eg in Hx. apply in_prod in Hx. clear - Hx Hv. 
    assert (Q: forall l ns, Forall2 (fun v r => In v r) l (map upto ns) -> forall v, In v l -> 0 <= v).
    { intros l ns. remember (map upto ns) as r eqn:E. intros H. revert ns E. induction H as [|w r0 l0 r1 Hw H IH]; intros ns E v0 Hv0; [elim Hv0|]. destruct ns as [|n ns]; [discriminate|]. injection E as -> ->.
      destruct Hv0 as [<-|Hv0]; [apply in_upto in Hw; lia|eapply IH; eauto]. }
    apply (Q xs [a; b; c] Hx v Hv). }
  rewrite SP in LE, LA, LX. rewrite <- VD in LE, LX.
  assert (XS: forall xs, In xs g <-> exists x y z, xs = [x; y; z] /\ 0 <= x < a /\ 0 <= y < b /\ 0 <= z < c).
  { intros xs. rewrite Eg, in_prod. split.
    - intros H. inversion H as [|x ? l1 ? Hx H1]; subst. inversion H1 as [|y ? l2 ? Hy H2]; subst. inversion H2 as [|z ? l3 ? Hz H3]; subst. inversion H3; subst.
      exists x, y, z. rewrite <- !in_upto. auto.
    - intros (x & y & z & -> & Hx & Hy & Hz). repeat (constructor; [apply in_upto; assumption|]). constructor. }
  assert (GI: forall xs xs', In xs g -> In xs' g -> map (coord xs) ds = map (coord xs') ds -> xs = xs').
  { intros xs xs' Hx Hx' E. apply XS in Hx as (x & y & z & -> & Hx & Hy & Hz). apply XS in Hx' as (x' & y' & z' & -> & Hx' & Hy' & Hz').
    assert (K: forall m, (m < 3)%nat -> nth m [x; y; z] 0 = nth m [x'; y'; z'] 0).
    { intros m Hm. destruct (dim_dec ds m) as [(d & Hd & Ed)|N].
      - rewrite <- Ed. clear - E Hd. induction ds as [|e es IH]; [elim Hd|]. cbn [map] in E. injection E as E1 E2. destruct Hd as [->|Hd]; [exact E1|auto].
      - pose proof (ONE m Hm N) as O1. destruct m as [|[|[|m]]]; cbn [nth] in *; lia. }
    pose proof (K 0%nat ltac:(lia)) as K0. pose proof (K 1%nat ltac:(lia)) as K1. pose proof (K 2%nat ltac:(lia)) as K2. cbn in K0, K1, K2. congruence. }
  assert (GC: forall t, In t (tuples ds) -> exists xs, In xs g /\ map (coord xs) ds = t).
  { intros t Ht. assert (TL: List.length t = List.length ds). { apply in_prod in Ht. apply F2_length in Ht. rewrite map_length in Ht. exact Ht. }
    pose (val := fun m => match find (fun p : dimension * Z => Nat.eqb (c_dim (d_sc (fst p))) m) (combine ds t) with Some p => snd p | None => 0 end).
    assert (V1: forall d v, In (d, v) (combine ds t) -> val (c_dim (d_sc d)) = v).
    { intros d v Hd. unfold val.
      assert (NDd: NoDup ds). { rewrite <- VD in ND. eapply NoDup_map_inv. exact ND. }
      assert (UQ: forall e w, In (e, w) (combine ds t) -> c_dim (d_sc e) = c_dim (d_sc d) -> w = v).
      { intros e w He Ee. assert (e = d) as -> by (apply UD'; [eapply in_combine_l; exact He|eapply in_combine_l; exact Hd|exact Ee]).
        clear - NDd Hd He. revert t Hd He. induction NDd as [|e es Ne NDd IH]; intros t Hd He; [elim Hd|]. destruct t as [|u t]; [elim Hd|]. cbn [combine] in Hd, He.
        destruct Hd as [Hd|Hd], He as [He|He]; [congruence| | |eauto].
        - injection Hd as -> ->. elim Ne. eapply in_combine_l; exact He.
        - injection He as -> ->. elim Ne. eapply in_combine_l; exact Hd. }
      clear - Hd UQ. induction (combine ds t) as [|[e w] l IH]; [elim Hd|]. cbn [find fst]. destruct (Nat.eqb_spec (c_dim (d_sc e)) (c_dim (d_sc d))) as [E|N].
      - cbn [snd]. apply (UQ e w); [left; reflexivity|exact E].
      - destruct Hd as [Hd|Hd]; [injection Hd as -> ->; congruence|]. apply IH; [exact Hd|]. intros e' w' H'. apply UQ. right. exact H'. }
    assert (V2: forall m, (m < 3)%nat -> 0 <= val m < nth m [a; b; c] 0).
    { intros m Hm. unfold val. destruct (find _ (combine ds t)) as [[d v]|] eqn:F.
      - apply find_some in F as (F1 & F2). cbn [fst snd] in *. apply Nat.eqb_eq in F2. subst m.
        assert (0 <= v < d_n d). { apply in_prod in Ht. clear - Ht F1. revert t Ht F1. induction ds as [|e es IH]; intros t Ht F1; inversion Ht as [|w ? t' ? Hw Ht']; subst; [elim F1|].
          cbn [combine] in F1. destruct F1 as [F1|F1]; [injection F1 as -> ->; apply in_upto; exact Hw|eauto]. }
        pose proof (LEQ d (d_n d) ltac:(eapply in_combine_l; exact F1) (EB d ltac:(eapply in_combine_l; exact F1))). lia.
      - destruct m as [|[|[|m]]]; cbn [nth]; lia. }
    exists [val 0%nat; val 1%nat; val 2%nat]. split.
    - apply XS. eexists _, _, _. split; [reflexivity|]. pose proof (V2 0%nat ltac:(lia)). pose proof (V2 1%nat ltac:(lia)). pose proof (V2 2%nat ltac:(lia)). cbn [nth] in *. auto.
    - assert (CO: forall d, In d ds -> coord [val 0%nat; val 1%nat; val 2%nat] d = val (c_dim (d_sc d))).
      { intros d Hd. unfold coord. destruct (D3 d Hd) as (K & _). destruct (c_dim (d_sc d)) as [|[|[|m]]]; [reflexivity|reflexivity|reflexivity|lia]. }
      assert (W: forall es u, List.length u = List.length es -> (forall d, In d es -> In d ds) -> (forall d v, In (d, v) (combine es u) -> In (d, v) (combine ds t)) ->
        map (coord [val 0%nat; val 1%nat; val 2%nat]) es = u).
      { induction es as [|d es IH]; intros [|v u] Lu S1 S2; try discriminate; [reflexivity|]. cbn [map]. f_equal.
        - rewrite CO by (apply S1; left; reflexivity). apply V1. apply S2. left. reflexivity.
        - apply IH; [simpl in Lu; lia|intros; apply S1; right; assumption|intros; apply S2; right; assumption]. }
      apply W; auto. }
  assert (TM: forall ws, Permutation (map (thread_program ms (guards ds body)) g) (concat (map snd ws)) ->
    exists b N, iterL (tup I body vars) (tuples ds) st b /\ forall n d, psteps I priv n (st, start ws) d ->
      (n <= N)%nat /\ (n = N <-> Forall finished (snd d)) /\
      (forall t, In t (snd d) -> finished t \/ exists ev g' t', fire I priv (fst d) t = Some (ev, g', t')) /\
      (forall p q t t2 ev ev2 g1 g2 t1' t2' x j, p <> q -> nth_error (snd d) p = Some t -> nth_error (snd d) q = Some t2 ->
         fire I priv (fst d) t = Some (ev, g1, t1') -> fire I priv (fst d) t2 = Some (ev2, g2, t2') ->
         priv x = false -> written ev x j -> touched ev2 x j -> False) /\
      (Forall finished (snd d) -> forall x j, priv x = false -> fst d x j = b x j)).
  { rewrite Ems. rewrite <- VD. apply kernel_team with (L := L).
    - rewrite VD; exact ND.
    - intros d Hd; split; [apply EB; exact Hd|]; intros x Hx; rewrite VD; apply (BX d x Hd Hx).
    - rewrite VD; exact PV.
    - intros x (d & Hd & Hx); split; apply (BX d x Hd Hx).
    - exact LE.
    - intros t t' Ht Ht' Ne x j Px W; exact (proj1 (LA t t' Ht Ht' Ne x j Px) W).
    - exact LX.
    - rewrite Eg; apply prod_nodup; repeat (constructor; [apply upto_nodup|]); constructor.
    - exact GI.
    - exact GN.
    - exact GC. }
  (* the sequential loops *)
  assert (DET: forall l p p' q q', iterL (tup I body vars) l p q -> iterL (tup I body vars) l p' q' -> (forall x j, p x j = p' x j) -> forall x j, q x j = q' x j).
  { clear. induction l as [|t l IH]; intros p p' q q' H H' E x j.
    - rewrite <- (steq_at _ _ x j H), <- (steq_at _ _ x j H'). apply E.
    - destruct H as (m & (o & _ & R) & H). destruct H' as (m' & (o' & _ & R') & H'). eapply IH; [exact H|exact H'|].
      destruct (runs_steq I body _ _ _ (setv vars t p') R) as (m2 & R2 & E2); [apply setv_ext; exact E|]. destruct (runs_det I _ _ _ _ _ _ R' R2) as (_ & ->). exact E2. }
  destruct (TM (map (fun xs => (st, [thread_program ms (guards ds body) xs])) g)) as (b1 & _ & L1 & _).
  { rewrite map_map. cbn [snd]. clear. induction g as [|xs g IH]; [constructor|]. cbn. constructor. exact IH. }
  assert (STR: forall l, In l ls -> stride (l_i l) (l_u l) = Some 1).
  { intros l Hl. rewrite <- Els in Hl. apply in_map_iff in Hl as (d & <- & Hd). destruct (FD d Hd) as (F1 & _). unfold iterations in F1. cbn [expr_eqb] in F1. rewrite Z.eqb_refl in F1.
    unfold d_i in F1. destruct (stride (l_i (d_l d)) (l_u (d_l d))) as [z|]; [|discriminate]. destruct z as [|p|p]; try discriminate. destruct p; try discriminate. reflexivity. }
  rewrite <- SP in L1. destruct (nest_run I body ls ND NW) with (Ns := Ns) (a := st) (b := b1) as (o & st' & Ho & R & O).
  { apply Forall_forall. intros l Hl. split; [apply STR; exact Hl|]. intros x Hx. apply CA; assumption. }
  { exact IT. }
  { exact L1. }
  assert (o = ONorm) as -> by (destruct Ho as [Ho|(Q & _)]; [exact Ho|contradiction]).
  exists st'. split; [exact R|]. intros ws Hws.
  destruct (TM ws) as (b2 & N & L2 & K).
  { rewrite Hws. clear. induction g as [|xs g IH]; [constructor|]. cbn. constructor. exact IH. }
  exists N. intros n gm ts ST. destruct (K n (gm, ts) ST) as (K1 & K2 & K3 & K4 & K5). cbn [fst snd] in *. do 3 (split; [assumption|]). split.
  - intros (p & q & t & t' & ev & ev' & g1 & g2 & t1 & t2 & x & j & Npq & Hp & Hq & F1 & F2 & Px & W & T). eapply K4; eauto.
  - intros F x j Px. rewrite (K5 F x j Px). rewrite SP in L1. rewrite (DET _ _ _ _ _ L2 L1 ltac:(reflexivity) x j). apply O. intros (Hx & _). rewrite (PV x Hx) in Px. discriminate.
Qed.

(* ======================= the hypotheses are satisfiable ======================= *)
Local Open Scope string_scope. Local Open Scope list_scope. Local Open Scope Z_scope.
(** map i < N (X, blocks of 2), map j < 2 (Y, blocks of 2): t = A[i][j]; B[i][j] = t *)
Definition c66_body : seq := one (NBlock [
  {| o_code := 0; o_ins := [ORead "A" [ESym "i"; ESym "j"]]; o_out := "t"; o_sub := [] |};
  {| o_code := 0; o_ins := [ORead "t" []]; o_out := "B"; o_sub := [ESym "i"; ESym "j"] |}]).
Definition c66_cuda (x : string) : option csched :=
  if String.eqb x "i" then Some (Sch 0 2 false) else if String.eqb x "j" then Some (Sch 1 2 false) else None.
Definition below (i : string) (e : expr) : level := Lv i (CLt (ESym i) e) (nxt i).
Definition c66_ls : list level := [below "i" (ESym "N"); below "j" (EInt 2)].
Definition c66_st : store := wr (wr st0 "A" [1; 1] 7) "N" [] 3.
Definition noA : assumptions := fun _ => None.
Definition c66_log (v w : Z) : trace :=
  [Ev false "i" [] []; Ev false "j" [] []; Ev false "A" [ESym "i"; ESym "j"] [v; w]; Ev true "t" [] []; Ev false "t" [] [];
   Ev false "i" [] []; Ev false "j" [] []; Ev true "B" [ESym "i"; ESym "j"] [v; w]].
Definition c66_order := cmapsS noA c66_cuda (nest c66_ls c66_body).
Definition c66_priv := cuda_private c65_transient ["A"; "B"; "N"] c66_order.
Lemma c66_isolated v w : exists b, runsT I0 c66_body (setv ["i"; "j"] [v; w] c66_st) ONorm b (c66_log v w).
Proof.
  pose (bl := [{| o_code := 0; o_ins := [ORead "A" [ESym "i"; ESym "j"]]; o_out := "t"; o_sub := [] |};
    {| o_code := 0; o_ins := [ORead "t" []]; o_out := "B"; o_sub := [ESym "i"; ESym "j"] |}]).
  assert (X: exists b, exec_block I0 (setv ["i"; "j"] [v; w] c66_st) bl = Some b) by (cbn; eauto).
  destruct X as (b & X). exists b. unfold c66_body, one.
  replace (c66_log v w) with (c66_log v w ++ asg_trace [] ++ []) by reflexivity. econstructor; [|reflexivity|constructor].
  replace (c66_log v w) with (block_trace I0 (setv ["i"; "j"] [v; w] c66_st) bl) by reflexivity. constructor. exact X.
Qed.
Example C66_hypotheses : forall k g, kernS noA c66_cuda (nest c66_ls c66_body) = Some k -> grid c66_order c66_st = Some g ->
  List.length g = 8%nat /\ exists st', runs I0 (nest c66_ls c66_body) c66_st ONorm st' /\ kernel_correct I0 c66_priv c66_order k g c66_st st'.
Proof.
  intros k g Hk Hg. split; [vm_compute in Hg; injection Hg as <-; reflexivity|].
  apply (C66_any_interleaving I0 noA c66_cuda c65_transient ["A"; "B"; "N"] c66_ls c66_body c66_st [3; 2] k c66_order g).
  - discriminate.
  - cbn. constructor; [simpl; intuition discriminate|constructor; [simpl; tauto|constructor]].
  - reflexivity.
  - intros l [<-|[<-|[]]]; cbn; eexists; (split; [reflexivity|]); cbn; repeat split; lia.
  - intros l l' sc sc' [<-|[<-|[]]] [<-|[<-|[]]]; cbn; intros E E' K; injection E as <-; injection E' as <-; try discriminate; reflexivity.
  - exact Hk.
  - apply Permutation_refl.
  - exact Hg.
  - intros d b n. destruct d as [|[|d]]; intros E; cbn in E; injection E as <- <-; vm_compute; discriminate.
  - constructor; [|constructor; [|constructor]]; intros v Hv; cbn.
    + destruct (Z.ltb_spec v 3), (Z.leb_spec 3 v); try reflexivity; lia.
    + destruct (Z.ltb_spec v 2), (Z.leb_spec 2 v); try reflexivity; lia.
  - intros l [<-|[<-|[]]]; cbn; intuition discriminate.
  - intros l x [<-|[<-|[]]]; cbn; intros Hx; (repeat destruct Hx as [<-|Hx]); (split; [cbn; intuition discriminate|]); cbn; intros K; try reflexivity; intuition discriminate.
  - intros i sc b x Hi Hx. cbn in Hi. destruct Hi as [Hi|[Hi|[]]]; injection Hi as <- <- <-; cbn in Hx; [|elim Hx]. destruct Hx as [<-|[]]. cbn. repeat split; intuition discriminate.
  - exists (fun t => match t with [v; w] => c66_log v w | _ => [] end).
    assert (SH: forall t, In t (space [3; 2]) -> exists v w, t = [v; w]).
    { intros t Ht. apply C66_index_space in Ht. inversion Ht as [|v ? t1 ? _ H1]; subst. inversion H1 as [|w ? t2 ? _ H2]; subst. inversion H2; subst. eauto. }
    split; [|split].
    + intros t Ht. destruct (SH t Ht) as (v & w & ->). apply c66_isolated.
    + intros t t' Ht Ht' Ne x j Px. destruct (SH t Ht) as (v & w & ->). destruct (SH t' Ht') as (v' & w' & ->). clear Ht Ht' SH Hk Hg.
      assert (W: forall v w, written (c66_log v w) x j -> x = "B" /\ j = [v; w]).
      { intros a b (e & H). cbn in H. repeat (destruct H as [H|H]; [try discriminate H; injection H as <- <- <-; try discriminate Px; auto|]). elim H. }
      assert (T: forall v w v' w', [v; w] <> [v'; w'] -> touched (c66_log v w) "B" [v'; w'] -> False).
      { intros a b a' b' N (p & e & H). cbn in H. repeat (destruct H as [H|H]; [try discriminate H; congruence|]). elim H. }
      split; intros Hw HT; apply W in Hw as [-> ->]; eapply T; try exact HT; congruence.
    + intros t x j Ht Px N. destruct (SH t Ht) as (v & w & ->). clear Ht SH Hk Hg. cbn [map c66_ls below l_i In] in N. cbn. intros X.
      destruct X as [[<- <-]|X]; [apply N; auto|]. destruct X as [[<- <-]|X]; [apply N; auto|]. destruct X as [[<- _]|X]; [discriminate|]. destruct X as (N1 & X).
      destruct X as [[<- <-]|X]; [apply N1; auto|]. destruct X as [[<- <-]|X]; [apply N; auto|]. destruct X as [[<- <-]|X]; [apply N; auto|]. destruct X as (_ & X). exact X.
Qed.

(* ======================= what the code accepts beyond that ======================= *)
(** run thread [p] as long as it can *)
Fixpoint drain I priv (fuel p : nat) (c : store * list thread) : store * list thread :=
  match fuel with O => c | S f => match sched I priv [p] c with Some d => drain I priv f p d | None => c end end.
Fixpoint drain_all I priv (fuel n : nat) (c : store * list thread) : store * list thread :=
  match n with O => c | S m => drain_all I priv fuel m (drain I priv fuel m c) end.
Lemma drain_steps I priv p fuel : forall n c0 c, psteps I priv n c0 c -> exists m, psteps I priv m c0 (drain I priv fuel p c).
Proof.
  induction fuel as [|f IH]; intros n c0 c P; cbn [drain]; [eauto|]. destruct (sched I priv [p] c) as [d|] eqn:E; [|eauto].
  destruct (sched_steps I priv _ n c0 c d P E) as (m & P'). eauto.
Qed.
Lemma drain_all_steps I priv fuel n : forall m c0 c, psteps I priv m c0 c -> exists m, psteps I priv m c0 (drain_all I priv fuel n c).
Proof. induction n as [|n IH]; intros m c0 c P; cbn [drain_all]; [eauto|]. destruct (drain_steps I priv n fuel m c0 c P) as (m' & P'). eauto. Qed.
(** the threads of the kernel one after the other: value of a cell at the end *)
Definition kernel_cell I priv ms (k : seq) (g : list (list Z)) (st : store) (x : string) (j : list Z) : option Z :=
  let d := drain_all I priv 200 (List.length g) (st, start (map (fun xs => (st0, [thread_program ms k xs])) g)) in
  if forallb finishedb (snd d) then Some (fst d x j) else None.
Lemma kernel_wrong I priv ms k g st st' x j v : priv x = false -> kernel_cell I priv ms k g st x j = Some v -> st' x j <> v -> ~ kernel_correct I priv ms k g st st'.
Proof.
  intros Px H N K. unfold kernel_cell in H. destruct (K (map (fun xs => (st0, [thread_program ms k xs])) g)) as (M & KM); [rewrite map_map; reflexivity|].
  destruct (drain_all_steps I priv 200 (List.length g) O _ _ (PS_nil I priv (st, start (map (fun xs => (st0, [thread_program ms k xs])) g)))) as (m & P).
  destruct (drain_all _ _ _ _ _) as [gm ts]. cbn [fst snd] in H. destruct (forallb finishedb ts) eqn:F; [|discriminate]. injection H as H.
  destruct (KM m gm ts P) as (_ & _ & _ & _ & Q). apply N. rewrite <- H. symmetry. apply Q; [|exact Px]. apply Forall_forall. intros t Ht. apply finishedb_ok. rewrite forallb_forall in F. auto.
Qed.
(** A kernel that is launched for [s] (every map's number of iterations and the
    launch configuration are found), and is wrong although the sequential program
    ends: cell [x][j] differs. *)
Definition miscompiled I cuda (s : seq) (st : store) (x : string) (j : list Z) (fuel : nat) : bool :=
  let ms := cmapsS noA cuda s in
  match kernS noA cuda s, grid ms st, xseq I fuel s st with
  | Some k, Some g, Some (ONorm, st') => match kernel_cell I (cuda_private (fun _ => false) [] ms) ms k g st x j with Some v => negb (Z.eqb (st' x j) v) | None => false end
  | _, _, _ => false
  end.
Lemma miscompiled_ok I cuda s st x j fuel : existsb (fun m => String.eqb x (fst (fst m))) (cmapsS noA cuda s) = false -> miscompiled I cuda s st x j fuel = true ->
  exists k g st', kernS noA cuda s = Some k /\ grid (cmapsS noA cuda s) st = Some g /\ runs I s st ONorm st' /\
    ~ kernel_correct I (cuda_private (fun _ => false) [] (cmapsS noA cuda s)) (cmapsS noA cuda s) k g st st'.
Proof.
  intros Px H. unfold miscompiled in H. destruct (kernS noA cuda s) as [k|]; [|discriminate]. destruct (grid _ st) as [g|]; [|discriminate].
  destruct (xseq I fuel s st) as [[o st']|] eqn:E; [|discriminate]. destruct o; try discriminate.
  destruct (kernel_cell _ _ _ _ _ _ x j) as [v|] eqn:K; [|discriminate]. exists k, g, st'. split; [reflexivity|]. split; [reflexivity|]. split; [eapply xseq_runs; exact E|].
  apply (kernel_wrong _ _ _ _ _ _ _ x j v); [unfold cuda_private; rewrite Px; reflexivity|exact K|]. intros Q. rewrite Q, Z.eqb_refl in H. discriminate.
Qed.
Definition put (x : string) (sub : list expr) (z : Z) : seq := one (NBlock [{| o_code := 0; o_ins := [OConst z]; o_out := x; o_sub := sub |}]).
Definition cmap (i : string) (n : Z) (s : seq) : node := NLoop KMap i (EInt 0) (CLt (ESym i) (EInt n)) (nxt i) s.
Definition sch3 (x : string) : option csched :=
  if String.eqb x "i" then Some (Sch 0 2 false) else if String.eqb x "j" || String.eqb x "k" then Some (Sch 1 2 false) else None.
(** Sibling maps of the same dimension: the grid is that of the first one found, so
    iterations of the other one are executed by no thread. The nesting
    transformation accepts both maps. *)
Theorem C66_sibling_maps_refuted :
  let s := one (cmap "i" 2 (SCons (cmap "j" 2 (put "A" [ESym "i"; ESym "j"] 1)) [] (one (cmap "k" 4 (put "B" [ESym "i"; ESym "k"] 1))))) in
  (forall i n, (i = "j" /\ n = 2) \/ (i = "k" /\ n = 4) -> nestable [(true, "i", sch3 "i")] true i (EInt 0) (CLt (ESym i) (EInt n)) (nxt i) = true) /\
  exists k g st', kernS noA sch3 s = Some k /\ grid (cmapsS noA sch3 s) st0 = Some g /\ runs I0 s st0 ONorm st' /\
    ~ kernel_correct I0 (cuda_private (fun _ => false) [] (cmapsS noA sch3 s)) (cmapsS noA sch3 s) k g st0 st'.
Proof.
  cbv zeta. split; [intros i n [(-> & ->)|(-> & ->)]; reflexivity|]. apply (miscompiled_ok I0 sch3 _ st0 "B" [0; 3] 200); vm_compute; reflexivity.
Qed.
(** A statement of the outer map outside the nested map is executed by every thread
    of the other dimension: "A[i] = A[i] + 1" is done twice. *)
Definition I_add (c : nat) (l : list Z) : option Z := match c, l with O, [v] => Some v | 1%nat, [v; w] => Some (v + w) | _, _ => None end.
Definition incr (x : string) (sub : list expr) : node := NBlock [{| o_code := 1; o_ins := [ORead x sub; OConst 1]; o_out := x; o_sub := sub |}].
Theorem C66_imperfect_nest_refuted :
  let s := one (cmap "i" 2 (SCons (incr "A" [ESym "i"]) [] (one (cmap "j" 2 (put "B" [ESym "i"; ESym "j"] 1))))) in
  nestable [(true, "i", sch3 "i")] true "j" (EInt 0) (CLt (ESym "j") (EInt 2)) (nxt "j") = true /\
  exists k g st', kernS noA sch3 s = Some k /\ grid (cmapsS noA sch3 s) st0 = Some g /\ runs I_add s st0 ONorm st' /\
    ~ kernel_correct I_add (cuda_private (fun _ => false) [] (cmapsS noA sch3 s)) (cmapsS noA sch3 s) k g st0 st'.
Proof.
  cbv zeta. split; [reflexivity|]. apply (miscompiled_ok I_add sch3 _ st0 "A" [0] 200); vm_compute; reflexivity.
Qed.
(** With nested_sync set the test is omitted, and the threads beyond the last
    iteration of the last block execute the body. *)
Theorem C66_no_test_refuted :
  let cuda := fun x => if String.eqb x "i" then Some (Sch 0 2 true) else None in
  let s := one (cmap "i" 3 (put "A" [ESym "i"] 1)) in
  exists k g st', kernS noA cuda s = Some k /\ grid (cmapsS noA cuda s) st0 = Some g /\ runs I0 s st0 ONorm st' /\
    ~ kernel_correct I0 (cuda_private (fun _ => false) [] (cmapsS noA cuda s)) (cmapsS noA cuda s) k g st0 st'.
Proof. cbv zeta. apply (miscompiled_ok I0 _ _ st0 "A" [3] 200); vm_compute; reflexivity. Qed.
Print Assumptions C66_any_interleaving.
Print Assumptions C66_hypotheses.

(** C65: OpenMP maps. Every interleaving of the threads of a parallel map whose
    iterations are independent gives the result of the sequential loop, without data
    races; maps produced by For2Map are of that kind. *)
From Coq Require Import Permutation.
From Verif Require Import Sym SymFacts SymFuns SymProofs1 SymProofs2 SymProofs3 SymProofs4 SymProps IR IRFacts IRRefine PassCFGProps LoopTile LoopIter LoopProps Trace Reorder Interchange DepAna DepProofs For2MapProofs DepOracle DepProps Par ParProofs.

(* ======================= specification ======================= *)
(** [T] is the list of accesses of iteration [v] when it is executed alone, from
    the memory the map starts with. *)
Definition isolated (I : nat -> list Z -> option Z) (i : string) (body : seq) (st : store) (v : Z) (T : trace) : Prop :=
  exists o b, (o = ONorm \/ o = OCont) /\ runsT I body (wr st i [] v) o b T.
(** no shared cell is written in one log and accessed in the other *)
Definition apart (priv : string -> bool) (T1 T2 : trace) : Prop := forall x j, priv x = false ->
  (written T1 x j -> ~ touched T2 x j) /\ (written T2 x j -> ~ touched T1 x j).
(** The iterations [vs] are independent: they do not communicate through shared
    containers, and each writes its private containers before reading them. *)
Definition independent I priv i body st (vs : list Z) : Prop := exists logs, Forall2 (isolated I i body st) vs logs /\
  ForallOrdPairs (apart priv) logs /\
  forall T x j, In T logs -> priv x = true -> ~ (x = i /\ j = []) -> ~ exposed T x j.

(** two different threads are about to access the same shared cell, one writing it *)
Definition racing I priv (g : store) (ts : list thread) : Prop :=
  exists p q t t' ev ev' g1 g2 t1 t2 x j, p <> q /\ nth_error ts p = Some t /\ nth_error ts q = Some t' /\
    fire I priv g t = Some (ev, g1, t1) /\ fire I priv g t' = Some (ev', g2, t2) /\
    priv x = false /\ written ev x j /\ touched ev' x j.
(** The parallel execution of "for (i = init; c; i = u) body" from [st] is correct
    w.r.t. the sequential result [st']: for every distribution of the iterations
    over any number of threads (any order within a thread, any contents of the
    uninitialised private copies) and every interleaving of their accesses, no
    thread fails or gets stuck, all executions end after the same number of steps,
    there is no data race, and the shared memory at the end is that of [st']. *)
Definition runs_in_parallel I priv i init c u body (st st' : store) : Prop :=
  exists v vs e, eval (env_of st) init = Some v /\ trip (env_of st) i c u v vs e /\
  forall ws, Permutation vs (concat (map snd ws)) -> exists N, forall n g ts, psteps I priv n (st, start (omp_team i body ws)) (g, ts) ->
    (n <= N)%nat /\ (n = N <-> Forall finished ts) /\
    (forall t, In t ts -> finished t \/ exists ev g' t', fire I priv g t = Some (ev, g', t')) /\
    ~ racing I priv g ts /\
    (Forall finished ts -> forall x j, priv x = false -> g x j = st' x j).

(* ======================= theorems ======================= *)
(** no conflict between two iterations *)
Definition iconf (priv : string -> bool) (v w : Z * trace) : Prop := no_conflict (byname priv) (snd v) (snd w).
Lemma inst1_det I i body it a b b' : inst1 I i body it a b -> inst1 I i body it a b' -> b = b'.
Proof.
  intros (T & o & _ & _ & R) (T' & o' & _ & _ & R'). apply (proj1 (proj2 (trace_run I))) in R, R'. eapply runs_det; [exact R|exact R'].
Qed.
Lemma inst1_program I i body v T a b : inst1 I i body (v, T) a b <-> instP I (iteration i body v, T) a b.
Proof.
  unfold inst1, instP, iteration. cbn [fst snd]. split.
  - intros (T' & o & E & Ho & R). subst T. exists o. split; [exact Ho|]. change (Ev true i [] [] :: T') with ([] ++ asg_trace [(i, EInt v)] ++ T').
    eapply T_cons; [apply T_seq; apply T_nil|reflexivity|exact R].
  - intros (o & Ho & R). inversion R; subst.
    + match goal with H : runT _ _ _ ONorm _ _ |- _ => inversion H; subst; match goal with H : runsT _ SNil _ _ _ _ |- _ => inversion H; subst end end.
      match goal with H : exec_assigns _ _ = Some _ |- _ => cbn in H; injection H as <- end. eexists _, o. split; [reflexivity|]. auto.
    + match goal with H : runT _ (NSeq SNil) _ _ _ _ |- _ => inversion H; subst; match goal with H : runsT _ SNil _ _ _ _ |- _ => inversion H; subst end end. congruence.
Qed.
Definition prog i body (it : Z * trace) : seq * trace := (iteration i body (fst it), snd it).
Lemma iters_programs I i body its : forall a b, iterL (inst1 I i body) its a b <-> iterL (instP I) (map (prog i body) its) a b.
Proof.
  induction its as [|[v T] its IH]; intros a b; [reflexivity|]. cbn [map iterL]. unfold prog at 1. cbn [fst snd].
  split; intros (m & H & L); exists m; (split; [apply inst1_program; exact H|apply IH; exact L]).
Qed.
Lemma programs_fst i body its : map fst (map (prog i body) its) = map (iteration i body) (map fst its).
Proof. rewrite !map_map. reflexivity. Qed.
Lemma programs_nconf priv i body its : ForallOrdPairs (nconf priv) (map (prog i body) its) <-> ForallOrdPairs (iconf priv) its.
Proof.
  induction its as [|it its IH]; simpl; [split; constructor|]. split; intros H; inversion H as [|? ? H1 H2]; subst; (constructor; [|apply IH; exact H2]);
    rewrite Forall_forall in *; [intros w Hw; apply (H1 (prog i body w)); apply in_map; exact Hw|]. intros w Hw. apply in_map_iff in Hw as (w' & <- & Hw). apply (H1 w' Hw).
Qed.
Lemma team_programs i body (ws : list (store * list Z)) : concat (map snd (omp_team i body ws)) = map (iteration i body) (concat (map snd ws)).
Proof. induction ws as [|[o vs] ws IH]; simpl; [reflexivity|]. rewrite map_app. f_equal. exact IH. Qed.
Lemma team_parallel I priv i init c u body st its v vs e st' m : priv i = true -> eval (env_of st) init = Some v -> trip (env_of st) i c u v vs e ->
  map fst its = vs -> (forall it, In it its -> exists b, inst1 I i body it st b) ->
  (forall it, In it its -> private (byname priv) (snd it)) -> ForallOrdPairs (iconf priv) its ->
  iterL (inst1 I i body) its st m -> (forall x j, priv x = false -> m x j = st' x j) ->
  runs_in_parallel I priv i init c u body st st'.
Proof.
  intros Pi Ev0 Tr Ef EX PR NC Lm Em. exists v, vs, e. split; [exact Ev0|]. split; [exact Tr|]. intros ws PM. rewrite <- Ef in PM.
  destruct (team I priv st (map (prog i body) its) (omp_team i body ws)) as (b & N & Lb & K).
  { rewrite programs_fst, team_programs. apply Permutation_map. exact PM. }
  { intros it Hit. apply in_map_iff in Hit as ([w T] & <- & Hit). destruct (EX _ Hit) as (b & Hb). exists b. apply inst1_program. exact Hb. }
  { intros it Hit. apply in_map_iff in Hit as ([w T] & <- & Hit). apply (PR _ Hit). }
  { apply programs_nconf. exact NC. }
  apply iters_programs in Lb. exists N. intros n g ts ST.
  destruct (K n (g, ts) ST) as (K1 & K2 & K3 & K4 & K5). cbn [fst snd] in *. repeat (split; [assumption|]). split.
  - intros (p & q & t & t' & ev & ev' & g1 & g2 & t1 & t2 & x & j & Npq & Hp & Hq & F1 & F2 & Px & W & T). eapply K4; eauto.
  - intros F x j Px. rewrite (K5 F x j Px). rewrite <- (Em x j Px).
    assert (D: forall l a a' b b', iterL (inst1 I i body) l a b -> iterL (inst1 I i body) l a' b' -> steq a a' -> steq b b').
    { clear. induction l as [|it l IH]; intros a a' b b' L L' E.
      - simpl in L, L'. eapply eqx_trans; [apply eqx_sym; exact L|]. eapply eqx_trans; [exact E|exact L'].
      - destruct L as (m & R & L). destruct L' as (m' & R' & L'). eapply IH; [exact L|exact L'|].
        destruct (item_ext (inst1 I i body) snd (fun it a b => inst1_local I i body it a b) it a m a' R E) as (m2 & R2 & E2).
        rewrite (inst1_det I i body it a' m' m2 R' R2). exact E2. }
    apply steq_at. exact (D its st st b m Lb Lm ltac:(apply eqx_refl)).
Qed.
Lemma private_log priv i T : priv i = true -> (forall x j, priv x = true -> ~ (x = i /\ j = []) -> ~ exposed T x j) -> private (byname priv) (Ev true i [] [] :: T).
Proof.
  intros Pi H x j Px X. cbn [exposed] in X. destruct X as (N & X). apply (H x j Px); [|exact X]. intros (-> & ->). auto.
Qed.
Lemma apart_nconf priv i T1 T2 : priv i = true -> apart priv T1 T2 -> no_conflict (byname priv) (Ev true i [] [] :: T1) (Ev true i [] [] :: T2).
Proof.
  intros Pi H x j Px. unfold byname in Px. specialize (H x j Px). destruct H as [H1 H2].
  assert (C: forall T, written (Ev true i [] [] :: T) x j -> written T x j).
  { intros T W. apply written_cons in W as [(_ & Q & _)|W]; [congruence|exact W]. }
  assert (X: forall T, exposed (Ev true i [] [] :: T) x j -> touched T x j).
  { intros T Q. cbn [exposed] in Q. destruct Q as (_ & Q). apply exposed_read in Q as (e & Q). exists false, e. exact Q. }
  split; [intros W; split|]; [intros W'|intros W'|intros W W'].
  - apply (H1 (C _ W)). apply touched_written. auto.
  - apply (H1 (C _ W)). auto.
  - apply (H2 (C _ W)). auto.
Qed.

(** Independent iterations: the sequential loop ends, and so does the parallel
    one, with the same shared memory. *)
Theorem C65_any_interleaving : forall I k transient outside i init c u body st v vs e,
  let priv := omp_private transient outside i body in
  eval (env_of st) init = Some v -> trip (env_of st) i c u v vs e -> stable i c u body ->
  independent I priv i body st vs ->
  exists st', run I (NLoop k i init c u body) st ONorm st' /\ runs_in_parallel I priv i init c u body st st'.
Proof.
  intros I k tr outside i init c u body st v vs e priv Ev0 Tr STB (logs & F2 & NC & PR).
  assert (Pi: priv i = true) by (unfold priv, omp_private; rewrite String.eqb_refl; reflexivity).
  pose (its := combine vs (map (fun T => Ev true i [] [] :: T) logs) : list (Z * trace)).
  assert (Ef: map fst its = vs). { unfold its. clear - F2. induction F2; simpl; [|rewrite IHF2]; reflexivity. }
  assert (EX: forall it, In it its -> exists b, inst1 I i body it st b).
  { unfold its. clear - F2. induction F2 as [|w T vs logs (o & b & Ho & R) F2 IH]; simpl; intros it Hit; [tauto|].
    destruct Hit as [<-|Hit]; [exists b, T, o; auto|auto]. }
  assert (LG: forall it, In it its -> exists T, In T logs /\ snd it = Ev true i [] [] :: T).
  { unfold its. intros [w T] Hit. apply in_combine_r in Hit. apply in_map_iff in Hit as (T' & <- & HT). exists T'. auto. }
  assert (PR': forall it, In it its -> private (byname priv) (snd it)).
  { intros it Hit. destruct (LG it Hit) as (T & HT & ->). apply private_log; [exact Pi|]. intros x j. apply PR. exact HT. }
  assert (NC': ForallOrdPairs (iconf priv) its).
  { unfold its. clear - F2 NC Pi. revert NC. induction F2 as [|w T vs logs H F2 IH]; intros NC; simpl; [constructor|]. inversion NC as [|? ? N1 N2]; subst.
    constructor; [|auto]. rewrite Forall_forall in *. intros [w' T'] Hw. apply in_combine_r in Hw. apply in_map_iff in Hw as (T2 & <- & HT).
    apply apart_nconf; [exact Pi|]. apply N1. exact HT. }
  destruct (items_value I priv st (map (prog i body) its)) with (a := st) as (b & Lb & _).
  { intros it Hit. apply in_map_iff in Hit as ([w T] & <- & Hit). destruct (EX _ Hit) as (b & Hb). exists b. apply inst1_program. exact Hb. }
  { intros it Hit. apply in_map_iff in Hit as ([w T] & <- & Hit). apply (PR' _ Hit). }
  { apply programs_nconf. exact NC'. }
  { auto. }
  apply iters_programs in Lb.
  pose proof (items_raws I i body its st b Lb) as Rb. rewrite Ef in Rb.
  destruct (iter_loop I i c u body STB vs st b v e Tr Rb) as (st' & R & E). exists st'. split; [econstructor; eauto|].
  eapply (team_parallel I priv i init c u body st its v vs e st' b); eauto.
  intros x j Px. rewrite (steq_at _ _ x j E). symmetry. apply Trace.wr_other. intros (Qi & _). congruence.
Qed.

(** What the loop-to-map conversion accepts may be run by OpenMP. [outside]: the
    containers used outside the loop. Beyond acceptance (and what C21 assumes): the
    body does not write symbols of the loop's header, constants are stored only to
    local containers, and local containers are initialised before they are read. *)
Definition header (init : expr) (c : cond) (u : expr) : list string := atoms init ++ catoms c ++ atoms u.
Definition C65_full : Prop := forall O sc A I B transient outside i init c u body q st st',
  let locals := fun x => transient x && negb (existsb (String.eqb x) outside) in
  let priv := omp_private transient (outside ++ header init c u) i body in
  honest i B O -> for2map O sc locals A (NLoop KFor i init c u body) = Some q -> wt_body sc body -> sc i = true ->
  (forall v vs e w, eval (env_of st) init = Some v -> trip (env_of st) i c u v vs e -> In w vs -> B (upd (env_of st) i w)) ->
  run I (NLoop KFor i init c u body) st ONorm st' -> runs_in_parallel I priv i init c u body st st'.
Lemma items_isolated I priv i body a0 l : (forall it, In it l -> private (byname priv) (snd it)) -> ForallOrdPairs (iconf priv) l ->
  forall a b, iterL (inst1 I i body) l a b -> (forall it x j, In it l -> exposed (snd it) x j -> a x j = a0 x j) ->
  forall it, In it l -> exists b0, inst1 I i body it a0 b0.
Proof.
  induction l as [|w l IH]; intros PR NC a b L AG it Hit; [elim Hit|]. destruct L as (m & R & L). inversion NC as [|? ? N1 N2]; subst. rewrite Forall_forall in N1.
  destruct (inst1_local I i body w a m R) as (F & K). destruct Hit as [<-|Hit].
  - destruct (K a0) as (b0 & R0 & _); [|eauto]. intros x j X. apply (AG w); [left; reflexivity|exact X].
  - apply (IH ltac:(intros; apply PR; right; assumption) N2 m b L); [|exact Hit]. intros w' x j Hw X.
    assert (Px: priv x = false). { destruct (priv x) eqn:P; [|reflexivity]. elim (PR w' ltac:(right; exact Hw) x j P X). }
    rewrite F; [apply (AG w'); [right; exact Hw|exact X]|]. intros W. exact (proj2 (proj1 (N1 w' Hw x j Px) W) X).
Qed.
Theorem C65_for2map_partial : forall O sc A I transient outside i init c u body q st st',
  let locals := fun x => transient x && negb (existsb (String.eqb x) outside) in
  let priv := omp_private transient (outside ++ header init c u) i body in
  for2map O sc locals A (NLoop KFor i init c u body) = Some q -> wt_body sc body -> sc i = true -> stable i c u body ->
  run I (NLoop KFor i init c u body) st ONorm st' ->
  (forall its m, iterL (inst1 I i body) its st m -> (exists v e, eval (env_of st) init = Some v /\ trip (env_of st) i c u v (map fst its) e) -> oracle_ok O sc its) ->
  (forall x, In x (atoms init) -> ~ In x (swrites body)) ->
  (forall x, const_scalar sc body x = true -> locals x = true) ->
  (forall its m x j, iterL (inst1 I i body) its st m -> priv x = true -> x <> i -> ~ exposed (concat (map snd its)) x j) ->
  q = NLoop KMap i init c u body /\ runs_in_parallel I priv i init c u body st st'.
Proof.
  intros O sc A I tr outside i init c u body q st st' locals priv ACC WT SI STB R OK HI CS UN.
  split. { unfold for2map in ACC. destruct (_ && _); [congruence|discriminate]. }
  assert (Pi: priv i = true) by (unfold priv, omp_private; rewrite String.eqb_refl; reflexivity).
  assert (ST: straight body = true). { unfold for2map in ACC. destruct (straight body); [reflexivity|]. rewrite andb_false_r in ACC. discriminate. }
  inversion R; subst. match goal with H : runl _ _ _ _ _ _ _ _ |- _ => rename H into Rl end. match goal with H : eval _ init = Some ?v0 |- _ => rename H into Ev0; rename v0 into v1 end.
  destruct (proj1 (proj2 straight_exits) body ST) as (NB & NR).
  destruct (loop_iter I i c u body STB NB _ _ _ Rl) as (vs & b' & Tr & L & Eb).
  destruct (raws_items I i body _ _ _ L) as (its & E & Lt).
  assert (OKi: oracle_ok O sc its). { apply (OK its b' Lt). exists v1, (st' i []). rewrite E. auto. }
  destruct (shared_good O sc locals A I i init c u body q ACC WT SI STB its st b' Lt OKi) as (G & NC). rewrite Forall_forall in G.
  (* shared cells are private by name *)
  assert (SN: forall it x j, In it its -> written (snd it) x j -> shared i its x j = true -> priv x = true).
  { intros it x j Hit W Sx. destruct (shared_names O sc locals A I i init c u body q ACC WT its st b' x j Lt OKi Sx) as [->|H]; [exact Pi|].
    assert (LX: locals x = true) by (destruct H as [H|H]; auto). destruct (string_dec x i) as [->|Nx]; [exact Pi|].
    unfold priv, omp_private. unfold locals in LX. apply andb_prop in LX as [L1 L2].
    assert (SW: In x (swrites body)).
    { destruct (items_in I i body its st b' it Lt Hit) as (x1 & y1 & (T & o & ET & _ & RT)). rewrite ET in W.
      apply written_cons in W as [(_ & Q & _)|(e & W)]; [congruence|]. exact (proj1 (proj2 (trace_writes I)) _ _ _ _ _ RT _ _ _ W). }
    rewrite L1. replace (existsb (String.eqb x) (swrites body)) with true. 2:{ symmetry. apply existsb_exists. exists x. rewrite String.eqb_refl. auto. }
    replace (existsb (String.eqb x) (outside ++ header init c u)) with false; [apply orb_true_r|]. symmetry. rewrite existsb_app. apply negb_true_iff in L2. rewrite L2. simpl.
    destruct (existsb (String.eqb x) (header init c u)) eqn:HH; [|reflexivity]. apply existsb_exists in HH as (y & Hy & Qy). apply String.eqb_eq in Qy. subst y.
    exfalso. unfold header in Hy. apply in_app_iff in Hy as [Hy|Hy]; [exact (HI x Hy SW)|]. exact (proj2 STB x Hy SW). }
  assert (NS: forall it x j, In it its -> written (snd it) x j -> priv x = false -> shared i its x j = false).
  { intros it x j Hit W Px. destruct (shared i its x j) eqn:S; [|reflexivity]. rewrite (SN it x j Hit W S) in Px. discriminate. }
  assert (NC': ForallOrdPairs (iconf priv) its).
  { assert (Gn: forall l, (forall it, In it l -> In it its) -> ForallOrdPairs (fun v w => no_conflict (shared i its) (snd v) (snd w)) l -> ForallOrdPairs (iconf priv) l).
    { induction l as [|w l IH]; intros Sub H; [constructor|]. inversion H as [|? ? H1 H2]; subst. constructor; [|apply IH; [intros; apply Sub; right; assumption|exact H2]].
      rewrite Forall_forall in *. intros w' Hw x j Px. unfold byname in Px. specialize (H1 w' Hw x j).
      split.
      - intros W. specialize (H1 (NS w x j (Sub w ltac:(left; reflexivity)) W Px)). tauto.
      - intros W. specialize (H1 (NS w' x j (Sub w' ltac:(right; exact Hw)) W Px)). tauto. }
    apply Gn; auto. }
  assert (PR': forall it, In it its -> private (byname priv) (snd it)).
  { intros it Hit x j Px X. unfold byname in Px. destruct (string_dec x i) as [->|Nx].
    - destruct (items_in I i body its st b' it Lt Hit) as (x1 & y1 & H1). 
      exact (proj1 (iter_i O sc locals A I i init c u body q ACC WT SI STB it _ _ H1) j X).
    - apply (UN its b' x j Lt Px Nx).
      (* exposed in its iteration: no earlier iteration writes the cell *)
      assert (Gx: forall l, (forall w, In w l -> In w its) -> In it l -> ForallOrdPairs (fun v w => no_conflict (shared i its) (snd v) (snd w)) l -> exposed (concat (map snd l)) x j).
      { induction l as [|w l IH]; intros Sub Hin H; [elim Hin|]. inversion H as [|? ? H1 H2]; subst. cbn [map concat]. apply exposed_app.
        destruct (exposed_dec (snd w) x j) as [Xw|NXw]; [auto|]. destruct Hin as [->|Hin]; [contradiction|].
        right. split; [|apply IH; [intros; apply Sub; right; assumption|exact Hin|exact H2]]. intros W. rewrite Forall_forall in H1.
        destruct (shared i its x j) eqn:Sx; [exact (G it Hit x j Sx X)|]. exact (proj2 (proj1 (H1 it Hin x j Sx) W) X). }
      apply Gx; auto. }
  eapply (team_parallel I priv i init c u body st its v1 vs (st' i []) st' b'); eauto.
  - apply (items_isolated I priv i body st its PR' NC' st b' Lt). auto.
  - intros x j Px. rewrite (steq_at _ _ x j Eb). symmetry. apply Trace.wr_other. intros (Qi & _). congruence.
Qed.

(** With the index tests decided syntactically (DepOracle.v) nothing about the
    analysis is assumed. *)
Theorem C65_syntactic_partial : forall sc A I transient outside i init c u body q st st',
  let locals := fun x => transient x && negb (existsb (String.eqb x) outside) in
  let priv := omp_private transient (outside ++ header init c u) i body in
  for2map (syntactic i A) sc locals A (NLoop KFor i init c u body) = Some q -> wt_body sc body -> sc i = true -> stable i c u body ->
  (forall y, In y (idx_syms body) -> ~ In y (swrites body)) -> no_trunc_A A ->
  (forall x e, In (Wr (x, e)) (sacc body) -> sc x = false ->
     Forall (fun d => forall b n, d = EPow (ESym b) n -> b = i) e /\ forallb no_trunc e = true) ->
  (forall v, cev (upd (env_of st) i v) c = Some true -> sat_dep (upd (env_of st) i v) A) ->
  (forall v w, agree_const A (upd (env_of st) i v) (upd (env_of st) i w)) ->
  run I (NLoop KFor i init c u body) st ONorm st' ->
  (forall x, In x (atoms init) -> ~ In x (swrites body)) ->
  (forall x, const_scalar sc body x = true -> locals x = true) ->
  (forall its m x j, iterL (inst1 I i body) its st m -> priv x = true -> x <> i -> ~ exposed (concat (map snd its)) x j) ->
  runs_in_parallel I priv i init c u body st st'.
Proof.
  intros sc A I tr outside i init c u body q st st' locals priv ACC WT SI STB FIX NT WS SD AC R HI CS UN.
  refine (proj2 (C65_for2map_partial _ _ _ _ _ _ _ _ _ _ _ _ _ _ ACC WT SI STB R _ HI CS UN)).
  intros its m L (v & e & Ev0 & T). eapply syntactic_ok; eauto.
  - unfold for2map in ACC. destruct (straight body); [reflexivity|]. rewrite andb_false_r in ACC. discriminate.
  - eapply trip_nodup; eauto.
  - intros w Hw. apply SD. clear - T Hw. induction T; [elim Hw|]. destruct Hw as [<-|Hw]; auto.
Qed.

(* ======================= examples and refutations ======================= *)
Local Open Scope string_scope. Local Open Scope list_scope. Local Open Scope Z_scope.
(** Executable schedules. *)
Fixpoint sched I priv (l : list nat) (c : store * list thread) : option (store * list thread) :=
  match l with
  | [] => Some c
  | p :: l' =>
      match nth_error (snd c) p with
      | Some t => match fire I priv (fst c) t with
                  | Some (_, g', t') => sched I priv l' (g', firstn p (snd c) ++ t' :: skipn (S p) (snd c))
                  | None => None
                  end
      | None => None
      end
  end.
Lemma nth_split' {A} (l : list A) p t : nth_error l p = Some t -> l = firstn p l ++ t :: skipn (S p) l.
Proof. revert p. induction l as [|x l IH]; intros [|p] H; simpl in *; try discriminate; [congruence|]. f_equal. apply IH. exact H. Qed.
Lemma sched_steps I priv l : forall n c0 c d, psteps I priv n c0 c -> sched I priv l c = Some d -> exists m, psteps I priv m c0 d.
Proof.
  induction l as [|p l IH]; intros n c0 [g ts] d P H; cbn [sched] in H; [injection H as <-; eauto|]. cbn [fst snd] in H.
  destruct (nth_error ts p) as [t|] eqn:E; [|discriminate]. destruct (fire I priv g t) as [[[ev g'] t']|] eqn:F; [|discriminate].
  eapply IH; [|exact H]. econstructor; [exact P|]. rewrite (nth_split' ts p t E) at 1. econstructor. exact F.
Qed.
Definition finishedb (t : thread) : bool := match at_ t, todo t with MStop ONorm, [] | MStop OCont, [] => true | _, _ => false end.
Lemma finishedb_ok t : finishedb t = true -> finished t.
Proof.
  unfold finishedb, finished. destruct (at_ t) as [| | |[| | |]|]; try discriminate; destruct (todo t); try discriminate; auto.
Qed.

(** t = A[i]; B[i] = t *)
Definition tmp_body : seq := one (NBlock [
  {| o_code := 0; o_ins := [ORead "A" [ESym "i"]]; o_out := "t"; o_sub := [] |};
  {| o_code := 0; o_ins := [ORead "t" []]; o_out := "B"; o_sub := [ESym "i"] |}]).
Definition c65_c : cond := CLt (ESym "i") (EInt 2).
Definition c65_st : store := wr st0 "A" [1] 7.
Definition dep_sc' (x : string) : bool := negb (String.eqb x "A" || String.eqb x "B").
Definition c65_transient (x : string) : bool := String.eqb x "t".
Lemma c65_trip : trip (env_of c65_st) "i" c65_c (nxt "i") 0 [0; 1] 2.
Proof. repeat (eapply T_next; [vm_compute; reflexivity|vm_compute; reflexivity|]). apply T_end. vm_compute. reflexivity. Qed.
Definition c65_log (v : Z) : trace :=
  [Ev false "i" [] []; Ev false "A" [ESym "i"] [v]; Ev true "t" [] []; Ev false "t" [] []; Ev false "i" [] []; Ev true "B" [ESym "i"] [v]].
Lemma c65_isolated v : isolated I0 "i" tmp_body c65_st v (c65_log v).
Proof.
  assert (X: exists b, exec_block I0 (wr c65_st "i" [] v) [
    {| o_code := 0; o_ins := [ORead "A" [ESym "i"]]; o_out := "t"; o_sub := [] |};
    {| o_code := 0; o_ins := [ORead "t" []]; o_out := "B"; o_sub := [ESym "i"] |}] = Some b).
  { cbn. eauto. }
  destruct X as (b & X). exists ONorm, b. split; [auto|]. unfold tmp_body, one.
  replace (c65_log v) with (c65_log v ++ asg_trace [] ++ []) by reflexivity. econstructor; [|reflexivity|constructor].
  replace (c65_log v) with (block_trace I0 (wr c65_st "i" [] v) [
    {| o_code := 0; o_ins := [ORead "A" [ESym "i"]]; o_out := "t"; o_sub := [] |};
    {| o_code := 0; o_ins := [ORead "t" []]; o_out := "B"; o_sub := [ESym "i"] |}]) by reflexivity.
  constructor. exact X.
Qed.
(** With [t] local the iterations are independent: the theorem applies. *)
Example C65_hypotheses : let priv := omp_private c65_transient ["A"; "B"] "i" tmp_body in
  eval (env_of c65_st) (EInt 0) = Some 0 /\ trip (env_of c65_st) "i" c65_c (nxt "i") 0 [0; 1] 2 /\ stable "i" c65_c (nxt "i") tmp_body /\
  independent I0 priv "i" tmp_body c65_st [0; 1] /\ (priv "t" = true /\ priv "B" = false).
Proof.
  cbv zeta. split; [reflexivity|]. split; [exact c65_trip|]. split.
  { split; [|intros x Hx]; cbn; [|cbn in Hx]; intuition (subst; discriminate). }
  split; [|split; reflexivity]. exists [c65_log 0; c65_log 1]. split; [repeat constructor; apply c65_isolated|]. split.
  - constructor; [|constructor; [constructor|constructor]]. constructor; [|constructor]. intros x j Px.
    assert (W: forall v, written (c65_log v) x j -> x = "B" /\ j = [v]).
    { intros v (e & H). cbn in H. repeat (destruct H as [H|H]; [try discriminate H; injection H as <- <- <-; try discriminate Px; auto|]). elim H. }
    assert (T: forall v w, v <> w -> touched (c65_log v) "B" [w] -> False).
    { intros v w N (b & e & H). cbn in H. repeat (destruct H as [H|H]; [try discriminate H; congruence|]). elim H. }
    split; intros Hw Ht; apply W in Hw as [-> ->]; eapply T; try exact Ht; lia.
  - intros T x j HT Px N. assert (HT': exists v, T = c65_log v) by (destruct HT as [<-|[<-|[]]]; eauto). destruct HT' as (v & ->). clear HT. cbn.
    intros X. destruct X as [[<- <-]|X]; [apply N; auto|]. destruct X as [[<- _]|X]; [discriminate|]. destruct X as (N1 & X).
    destruct X as [[<- <-]|X]; [apply N1; auto|]. destruct X as [[<- <-]|X]; [apply N; auto|]. tauto.
Qed.

(** A loop of that kind: i = 0, 1 with "0 <= i" in its condition. *)
Definition for_c : cond := CAnd [CLt (ESym "i") (EInt 2); CLe (EInt 0) (ESym "i")].
Lemma tmp_logs its : forall a m, iterL (inst1 I0 "i" tmp_body) its a m -> map snd its = map (fun v => Ev true "i" [] [] :: c65_log v) (map fst its).
Proof.
  induction its as [|[v T] its IH]; intros a m L; [reflexivity|]. destruct L as (b & (T1 & o & E & Ho & R) & L). cbn [map fst snd] in *. rewrite (IH _ _ L). f_equal. subst T.
  f_equal. unfold tmp_body, one in R. inversion R; subst.
  - match goal with H : runT _ _ _ _ _ _ |- _ => inversion H; subst end. match goal with H : runsT _ SNil _ _ _ _ |- _ => inversion H; subst end. reflexivity.
  - match goal with H : runT _ _ _ _ _ _ |- _ => inversion H; subst end. congruence.
Qed.
Example C65_syntactic_hypotheses :
  let locals := fun x => c65_transient x && negb (existsb (String.eqb x) ["A"; "B"]) in
  let priv := omp_private c65_transient (["A"; "B"] ++ header (EInt 0) for_c (nxt "i")) "i" tmp_body in
  for2map (syntactic "i" dep_A) dep_sc' locals dep_A (NLoop KFor "i" (EInt 0) for_c (nxt "i") tmp_body) = Some (NLoop KMap "i" (EInt 0) for_c (nxt "i") tmp_body) /\
  wt_body dep_sc' tmp_body /\ stable "i" for_c (nxt "i") tmp_body /\
  (forall y, In y (idx_syms tmp_body) -> ~ In y (swrites tmp_body)) /\
  (forall x e, In (Wr (x, e)) (sacc tmp_body) -> dep_sc' x = false -> Forall (fun d => forall b n, d = EPow (ESym b) n -> b = "i") e /\ forallb no_trunc e = true) /\
  (forall v, cev (upd (env_of c65_st) "i" v) for_c = Some true -> sat_dep (upd (env_of c65_st) "i" v) dep_A) /\
  (exists st', run I0 (NLoop KFor "i" (EInt 0) for_c (nxt "i") tmp_body) c65_st ONorm st') /\
  (forall x, const_scalar dep_sc' tmp_body x = true -> locals x = true) /\
  (forall its m x j, iterL (inst1 I0 "i" tmp_body) its c65_st m -> priv x = true -> x <> "i" -> ~ exposed (concat (map snd its)) x j).
Proof.
  cbv zeta. split; [reflexivity|]. split.
  { split; [|split]; simpl; try tauto. intros a Ha. repeat (destruct Ha as [<-|Ha]; [simpl; try discriminate; reflexivity|]). elim Ha. }
  split. { split; simpl; [intuition discriminate|]. intros x Hx H. intuition (subst; discriminate). }
  split. { simpl. intros y Hy H. intuition (subst; discriminate). }
  split. { simpl. intros x e Hx _. repeat (destruct Hx as [Hx|Hx]; [try discriminate Hx; injection Hx as <- <-; (split; [|reflexivity]); repeat (apply Forall_cons; [intros; discriminate|]); apply Forall_nil|]). elim Hx. }
  split. { intros v Hv. apply dep_A_ok. cbn in Hv. destruct (Z.leb_spec 2 v); destruct (Z.leb_spec 0 v); cbn in Hv; try discriminate; lia. }
  split. { destruct (xnode I0 50 (NLoop KFor "i" (EInt 0) for_c (nxt "i") tmp_body) c65_st) as [[o st']|] eqn:E; [|vm_compute in E; discriminate].
    assert (o = ONorm) as -> by (vm_compute in E; congruence). exists st'. eapply xnode_run; exact E. }
  split. { intros x H. unfold const_scalar in H. cbn in H. rewrite andb_false_r in H. discriminate. }
  intros its m x j L Px Nx. rewrite (tmp_logs its _ _ L). clear L m.
  assert (x = "t") as ->. { unfold omp_private in Px. apply orb_prop in Px as [Px|Px]; [apply String.eqb_eq in Px; congruence|].
    apply andb_prop in Px as [Px _]. apply andb_prop in Px as [Px _]. apply String.eqb_eq in Px. exact Px. }
  clear. induction (map fst its) as [|v vs IH]; cbn [map concat]; [intros []|]. intros X. apply exposed_app in X as [X|(_ & X)]; [|exact (IH X)].
  cbn in X. destruct X as (_ & X). destruct X as [[X _]|X]; [discriminate|]. destruct X as [[X _]|X]; [discriminate|]. destruct X as (N & X).
  destruct X as [[_ X]|X]; [subst j; apply N; auto|]. destruct X as [[X _]|X]; [discriminate|]. tauto.
Qed.

(** The map transformation accepts every sequential map (omp_transform.cpp:13-24),
    and a container also used outside the body is shared: with [t] used after the
    loop, "t = A[i]; B[i] = t" gives the same result in every order of its
    iterations, but not when they are interleaved. *)
Theorem C65_shared_temporary_refuted : let priv := omp_private c65_transient ["A"; "B"; "t"] "i" tmp_body in
  exists st', run I0 (NLoop KMap "i" (EInt 0) c65_c (nxt "i") tmp_body) c65_st ONorm st' /\
    any_order I0 c65_transient "i" (EInt 0) c65_c (nxt "i") tmp_body c65_st st' /\
    ~ runs_in_parallel I0 priv "i" (EInt 0) c65_c (nxt "i") tmp_body c65_st st'.
Proof.
  cbv zeta.
  destruct (xnode I0 50 (NLoop KMap "i" (EInt 0) c65_c (nxt "i") tmp_body) c65_st) as [[o st']|] eqn:E; [|vm_compute in E; discriminate].
  assert (o = ONorm) as -> by (vm_compute in E; congruence). exists st'. pose proof (xnode_run _ _ _ _ _ _ E) as R.
  split; [exact R|].
  assert (V: st' "B" [0] = 0) by (vm_compute in E; injection E as <-; reflexivity).
  assert (Sh: steq st' (wr (wr (wr (wr (wr (wr (wr c65_st "i" [] 0) "t" [] 0) "B" [0] 0) "i" [] 1) "t" [] 7) "B" [1] 7) "i" [] 2)).
  { cbn in E. injection E as <-. apply eqx_refl. }
  clear E. split.
  - exists 0, [0; 1], 2. split; [reflexivity|]. split; [exact c65_trip|]. split; [rewrite (steq_at _ _ "i" [] Sh); reflexivity|].
    assert (Step: forall v a, exists b, raw I0 "i" tmp_body v a b /\ steq b (wr (wr (wr a "i" [] v) "t" [] (a "A" [v])) "B" [v] (a "A" [v]))).
    { intros v a. eexists. split.
      - exists ONorm. split; [auto|]. unfold tmp_body, one. econstructor; [constructor; cbn; reflexivity|reflexivity|constructor].
      - apply eqx_refl. }
    intros vs' P. apply Permutation_length_2_inv in P. destruct P as [-> | ->].
    + destruct (Step 0 c65_st) as (m1 & R1 & S1). destruct (Step 1 m1) as (m2 & R2 & S2). exists m2. split; [exists m1; split; [exact R1|]; exists m2; split; [exact R2|apply eqx_refl]|].
      intros x j Nx Lx. rewrite (steq_at _ _ x j S2), (steq_at _ _ x j Sh). rewrite (steq_at _ _ "A" [1] S1).
      unfold c65_transient in Lx. apply String.eqb_neq in Lx. unfold wr at 1.
      destruct (String.eqb_spec "B" x) as [<-|NB].
      * simpl. destruct (idx_eqb [1] j) eqn:J; [apply idx_eqb_eq in J; subst j; reflexivity|]. rewrite !(Trace.wr_other _ "t"), !(Trace.wr_other _ "i") by (intros (Q & _); discriminate). rewrite (steq_at _ _ "B" j S1).
        unfold wr; simpl. destruct j as [|z [|z' j]]; try reflexivity; cbn in J |- *; rewrite ?andb_true_r in J.
      * simpl. rewrite !(Trace.wr_other _ "t"), !(Trace.wr_other _ "i") by (intros (Q & _); congruence). rewrite (steq_at _ _ x j S1).
        rewrite !(Trace.wr_other _ "B") by (intros (Q & _); congruence). rewrite !(Trace.wr_other _ "t"), !(Trace.wr_other _ "i") by (intros (Q & _); congruence).
        rewrite !(Trace.wr_other _ "B") by (intros (Q & _); congruence). rewrite !(Trace.wr_other _ "t"), !(Trace.wr_other _ "i") by (intros (Q & _); congruence). reflexivity.
    + destruct (Step 1 c65_st) as (m1 & R1 & S1). destruct (Step 0 m1) as (m2 & R2 & S2). exists m2. split; [exists m1; split; [exact R1|]; exists m2; split; [exact R2|apply eqx_refl]|].
      intros x j Nx Lx. rewrite (steq_at _ _ x j S2), (steq_at _ _ x j Sh). rewrite (steq_at _ _ "A" [0] S1).
      unfold c65_transient in Lx. apply String.eqb_neq in Lx.
      destruct (String.eqb_spec "B" x) as [<-|NB].
      * assert (Q: m1 "B" j = wr c65_st "B" [1] 7 "B" j). { rewrite (steq_at _ _ "B" j S1). reflexivity. }
        unfold wr at 1. simpl. rewrite !(Trace.wr_other _ "t"), !(Trace.wr_other _ "i") by (intros (Qx & _); discriminate). rewrite Q. clear.
        unfold wr; simpl. destruct j as [|z [|z' j]]; try reflexivity; [destruct z as [|[p|p|]|p]; reflexivity|]. rewrite !andb_false_r. reflexivity.
      * rewrite !(Trace.wr_other _ "B") by (intros (Q & _); congruence). rewrite !(Trace.wr_other _ "t"), !(Trace.wr_other _ "i") by (intros (Q & _); congruence). rewrite (steq_at _ _ x j S1).
        rewrite !(Trace.wr_other _ "B") by (intros (Q & _); congruence). rewrite !(Trace.wr_other _ "t"), !(Trace.wr_other _ "i") by (intros (Q & _); congruence).
        rewrite !(Trace.wr_other _ "B") by (intros (Q & _); congruence). rewrite !(Trace.wr_other _ "t"), !(Trace.wr_other _ "i") by (intros (Q & _); congruence). reflexivity.
  - intros (v & vs & e & Ev0 & Tr & K). assert (v = 0) as -> by (vm_compute in Ev0; congruence).
    destruct (trip_det _ _ _ _ _ _ _ Tr _ _ c65_trip) as (-> & _).
    destruct (K [(st0, [0]); (st0, [1])] ltac:(apply Permutation_refl)) as (N & KN). clear K Ev0 Tr.
    pose (D := sched I0 (omp_private c65_transient ["A"; "B"; "t"] "i" tmp_body)
      (repeat 0%nat 14 ++ repeat 1%nat 14 ++ repeat 0%nat 7 ++ repeat 1%nat 7) (c65_st, start (omp_team "i" tmp_body [(st0, [0]); (st0, [1])]))).
    assert (C: match D with Some (g, ts) => forallb finishedb ts && Z.eqb (g "B" [0]) 7 | None => false end = true) by (vm_compute; reflexivity).
    destruct D as [[g ts]|] eqn:ED; [|discriminate]. apply andb_prop in C as [C1 C2]. apply Z.eqb_eq in C2.
    destruct (sched_steps _ _ _ O _ _ _ (PS_nil _ _ _) ED) as (m & P). destruct (KN m g ts P) as (_ & _ & _ & _ & F).
    rewrite (F ltac:(apply Forall_forall; intros t Ht; apply finishedb_ok; rewrite forallb_forall in C1; auto) "B" [0] eq_refl) in C2. rewrite V in C2. discriminate.
Qed.

(** For2Map accepts a loop that stores a constant to a shared scalar in every
    iteration; run by OpenMP, two threads store to it at the same time. *)
Definition const_body : seq := SCons (NBlock [{| o_code := 0; o_ins := [OConst 7]; o_out := "A"; o_sub := [ESym "i"] |}]) [("t", EInt 5)] SNil.
Definition const_loop (k : kind) : node := NLoop k "i" (EInt 1) (CLt (ESym "i") (EInt 3)) (nxt "i") const_body.
Lemma const_trip : trip (env_of st0) "i" (CLt (ESym "i") (EInt 3)) (nxt "i") 1 [1; 2] 3.
Proof. repeat (eapply T_next; [vm_compute; reflexivity|vm_compute; reflexivity|]). apply T_end. vm_compute. reflexivity. Qed.
Definition storesb I priv (g : store) (ts : list thread) (p : nat) (x : string) : bool :=
  match nth_error ts p with
  | Some t => match fire I priv g t with Some ([Ev true y _ []], _, _) => String.eqb x y | _ => false end
  | None => false
  end.
Lemma storesb_ok I priv g ts p x : storesb I priv g ts p x = true ->
  exists t e g1 t1, nth_error ts p = Some t /\ fire I priv g t = Some ([Ev true x e []], g1, t1).
Proof.
  unfold storesb. destruct (nth_error ts p) as [t|]; [|discriminate]. destruct (fire I priv g t) as [[[ev g1] t1]|] eqn:F; [|discriminate].
  destruct ev as [|[[|] y e [|]] [|]]; try discriminate. intros H. apply String.eqb_eq in H. subst y. exists t, e, g1, t1. auto.
Qed.
Lemma stores_race I priv g ts x : priv x = false -> storesb I priv g ts 0 x = true -> storesb I priv g ts 1 x = true -> racing I priv g ts.
Proof.
  intros Px H0 H1. apply storesb_ok in H0 as (t & e & g1 & t1 & N0 & F0). apply storesb_ok in H1 as (t' & e' & g2 & t2 & N1 & F1).
  exists 0%nat, 1%nat, t, t', [Ev true x e []], [Ev true x e' []], g1, g2, t1, t2, x, []. repeat (split; [first [assumption|discriminate]|]).
  split; [exists e; left; reflexivity|exists true, e'; left; reflexivity].
Qed.
Theorem C65_constant_store_refuted :
  for2map (syntactic "i" dep_A) flow_sc (fun _ => false) dep_A (const_loop KFor) = Some (const_loop KMap) /\
  let priv := omp_private (fun _ => false) (["t"; "A"] ++ header (EInt 1) (CLt (ESym "i") (EInt 3)) (nxt "i")) "i" const_body in
  exists n g ts, psteps I0 priv n (st0, start (omp_team "i" const_body [(st0, [1]); (st0, [2])])) (g, ts) /\ racing I0 priv g ts.
Proof.
  split; [reflexivity|]. cbv zeta.
  pose (D := sched I0 (omp_private (fun _ => false) (["t"; "A"] ++ header (EInt 1) (CLt (ESym "i") (EInt 3)) (nxt "i")) "i" const_body)
    (repeat 0%nat 14 ++ repeat 1%nat 14) (st0, start (omp_team "i" const_body [(st0, [1]); (st0, [2])]))).
  assert (C: match D with Some (g, ts) => storesb I0 (omp_private (fun _ => false) (["t"; "A"] ++ header (EInt 1) (CLt (ESym "i") (EInt 3)) (nxt "i")) "i" const_body) g ts 0 "t" &&
    storesb I0 (omp_private (fun _ => false) (["t"; "A"] ++ header (EInt 1) (CLt (ESym "i") (EInt 3)) (nxt "i")) "i" const_body) g ts 1 "t" | None => false end = true) by (vm_compute; reflexivity).
  destruct D as [[g ts]|] eqn:ED; [|discriminate]. apply andb_prop in C as [C1 C2].
  destruct (sched_steps _ _ _ O _ _ _ (PS_nil _ _ _) ED) as (m & P). exists m, g, ts. split; [exact P|].
  refine (stores_race _ _ g ts "t" eq_refl C1 C2).
Qed.
Theorem C65_full_refuted : ~ C65_full.
Proof.
  intros F. pose (O := {| is_disjoint := fun _ _ => false; is_subset := fun _ _ => false;
    intersects := fun e e' => negb (subset_eqb e [ESym "i"] && subset_eqb e' [ESym "i"]) |}).
  assert (HO: honest "i" bounds4 O).
  { split; [|split]; simpl; try discriminate. intros e e' H s s' j j' _ _ N. apply negb_false_iff, andb_prop in H as [H1 H2].
    apply subset_eqb_eq in H1, H2. subst. cbn. congruence. }
  destruct (xnode I0 50 (const_loop KFor) st0) as [[o st']|] eqn:E; [|vm_compute in E; discriminate].
  assert (o = ONorm) as -> by (vm_compute in E; congruence). apply xnode_run in E.
  destruct (F O flow_sc dep_A I0 bounds4 (fun _ => false) ["t"; "A"] "i" (EInt 1) (CLt (ESym "i") (EInt 3)) (nxt "i") const_body (const_loop KMap) st0 st' HO) as (v & vs & e & Ev0 & Tr & K).
  - reflexivity.
  - split; [|split]; simpl; [|intros x [<-|[]]; reflexivity|tauto]. intros a Ha. repeat (destruct Ha as [<-|Ha]; [simpl; discriminate || reflexivity|]). elim Ha.
  - reflexivity.
  - intros v vs e w Hv T Hw. assert (v = 1) as -> by (vm_compute in Hv; congruence). destruct (trip_det _ _ _ _ _ _ _ T _ _ const_trip) as (-> & _).
    unfold bounds4, upd. simpl. simpl in Hw. lia.
  - exact E.
  - assert (v = 1) as -> by (vm_compute in Ev0; congruence). destruct (trip_det _ _ _ _ _ _ _ Tr _ _ const_trip) as (-> & _).
    destruct (K [(st0, [1]); (st0, [2])] ltac:(apply Permutation_refl)) as (N & KN).
    destruct (proj2 C65_constant_store_refuted) as (n & g & ts & P & RC). destruct (KN n g ts P) as (_ & _ & _ & NR & _). exact (NR RC).
Qed.
Print Assumptions C65_any_interleaving.
Print Assumptions C65_for2map_partial.
Print Assumptions C65_full_refuted.
Print Assumptions C65_shared_temporary_refuted.

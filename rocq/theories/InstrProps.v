(** Properties of the instrumentation runtime (C62, C63).  Specification: InstrSpec.v.  [drive c boot H] makes the
    calls of the history [H] one after the other; [ids u]: the id init returned for region [u]. *)
From Coq Require Import List String ZArith QArith Bool Arith Lia.
From Verif Require Import Instr InstrSpec InstrProofs.
Import ListNotations.
Local Open Scope string_scope.
Local Open Scope list_scope.
Local Open Scope nat_scope.

(* ======================= C62 ======================= *)
(** Whatever regions are instrumented, and however their calls interleave, the program is never ended, and the
    runtime never leaves its vectors. *)
Theorem C62_never_fails : forall c H, protocol H -> exists s ids, drive c boot H = Up s ids.
Proof. intros c H P. destruct (drive_inv c H P) as (s & ids & E & _). eauto. Qed.
(** An id stands for one region, and stays the same when the region is initialised again. *)
Theorem C62_ids : forall c H s ids, protocol H -> drive c boot H = Up s ids ->
  (forall u, of_region u H <> [] -> exists r, s_regs s (ids u) = Some r /\ r_uuid r = u) /\
  (forall u v, of_region u H <> [] -> of_region v H <> [] -> ids u = ids v -> u = v).
Proof.
  intros c H s ids P E. destruct (drive_inv c H P) as (s1 & ids1 & E1 & (L & NI & _)). rewrite E in E1. inversion E1; subst s1 ids1.
  assert (G : forall u, of_region u H <> [] -> exists r, s_regs s (ids u) = Some r /\ r_uuid r = u).
  { intros u N. destruct (s_names s u) as [id|] eqn:EN; [|exfalso; apply N; exact (l_fresh _ _ _ _ _ L u EN)]. rewrite (NI u id EN). exact (l_name _ _ _ _ _ L u id EN). }
  split; [exact G|]. intros u v NU NV EQ. destruct (G u NU) as (r & R & UR). destruct (G v NV) as (r' & R' & UR'). rewrite EQ in R. congruence.
Qed.
Theorem C62_ids_stay : forall c H H' s ids s' ids', protocol (H ++ H') -> drive c boot H = Up s ids -> drive c boot (H ++ H') = Up s' ids' ->
  forall u, of_region u H <> [] -> ids' u = ids u.
Proof. intros c H H' s ids s' ids' P E E' u. eapply drive_names; eauto. Qed.
(** An open region has an event set of its own, which is running if it has any events. *)
Theorem C62_open_regions_counted : forall c H s ids u, protocol H -> drive c boot H = Up s ids -> open_in H u ->
  exists r h, s_regs s (ids u) = Some r /\ r_uuid r = u /\ r_papi r = Some h /\ p_live s h = Some (negb (Nat.eqb (List.length (events c (r_set r))) 0)) /\
    forall v r', v <> u -> s_regs s (ids v) = Some r' -> r_uuid r' = v -> r_papi r' <> Some h.
Proof.
  intros c H s ids u P E OP. destruct (drive_inv c H P) as (s1 & ids1 & E1 & (L & NI & _)). rewrite E in E1. inversion E1; subst s1 ids1.
  pose proof (l_open _ _ _ _ _ L u OP) as EN. destruct (l_name _ _ _ _ _ L u _ EN) as (r & R & UR). pose proof (l_papi _ _ _ _ _ L _ r R) as PA. rewrite UR in PA.
  destruct (r_papi r) as [h|] eqn:EH; [|exfalso; apply (proj1 PA); exact OP]. exists r, h. split; [exact R|]. split; [exact UR|]. split; [exact EH|]. split.
  - destruct PA as [[_ PA]|[PA _]]; [exact PA|]. destruct (l_sleep _ _ _ _ _ L u PA) as (K & _). destruct OP; congruence.
  - intros v r' N R' UR' E'. apply N. pose proof (l_inj _ _ _ _ _ L _ _ r r' h R R' EH E') as EQ. rewrite <- EQ in R'. congruence.
Qed.
(** The event sets in use: those of the open regions and at most ten others. *)
Theorem C62_event_sets : forall c H s ids os hs, protocol H -> drive c boot H = Up s ids ->
  (forall u, open_in H u -> In u os) -> NoDup hs -> (forall h, In h hs -> p_live s h <> None) -> List.length hs <= List.length os + 10.
Proof.
  intros c H s ids os hs P E OS ND LV. destruct (drive_inv c H P) as (s1 & ids1 & E1 & (L & _ & _)). rewrite E in E1. inversion E1; subst s1 ids1.
  assert (G : exists us, List.length us = List.length hs /\ NoDup us /\ forall u, In u us -> In u (os ++ s_sleep s) /\ exists id r h, In h hs /\ s_regs s id = Some r /\ r_papi r = Some h /\ r_uuid r = u).
  { revert ND LV. induction hs as [|h hs IH]; intros ND LV; [exists []; cbn; split; [reflexivity|]; split; [constructor|intros u []]|].
    apply NoDup_cons_iff in ND as [N1 N2]. destruct IH as (us & U1 & U2 & U3); auto; [intros k K; apply LV; right; exact K|].
    destruct (p_live s h) as [b|] eqn:EB; [|exfalso; apply (LV h (or_introl eq_refl)); exact EB]. destruct (l_live _ _ _ _ _ L h b EB) as (_ & id & r & R & EH).
    exists (r_uuid r :: us). split; [cbn; congruence|]. split.
    - constructor; [|exact U2]. intros K. destruct (U3 _ K) as (_ & id' & r' & h' & I' & R' & E' & UU). destruct (l_reg _ _ _ _ _ L id r R) as [Q1 _]. destruct (l_reg _ _ _ _ _ L id' r' R') as [Q2 _].
      rewrite UU in Q2. assert (id = id') by congruence. subst id'. assert (r' = r) by congruence. subst r'. assert (h' = h) by congruence. subst h'. contradiction.
    - intros u [<-|K].
      + split; [|exists id, r, h; split; [left; reflexivity|auto]]. pose proof (l_papi _ _ _ _ _ L id r R) as PA. rewrite EH in PA. apply in_or_app. destruct PA as [[PA _]|[PA _]]; auto.
      + destruct (U3 u K) as (K1 & id' & r' & h' & K2 & K3). split; [exact K1|]. exists id', r', h'. split; [right; exact K2|exact K3]. }
  destruct G as (us & U1 & U2 & U3). rewrite <- U1. assert (K : List.length us <= List.length (os ++ s_sleep s)) by (apply NoDup_incl_length; [exact U2|intros u K; apply U3; exact K]).
  rewrite app_length in K. pose proof (l_len _ _ _ _ _ L) as LN. unfold cache_size in LN. lia.
Qed.
(** At the end of the program the event sets kept for later are destroyed; if every region is closed none is left. *)
Theorem C62_shutdown : forall c H s ids, protocol H -> drive c boot H = Up s ids -> exists s', shutdown (s_sleep s) s = Ret 0 s' /\
  ((forall u, ~ open_in H u) -> forall h, p_live s' h = None).
Proof.
  intros c H s ids P E. destruct (drive_inv c H P) as (s1 & ids1 & E1 & (L & _ & _)). rewrite E in E1. inversion E1; subst s1 ids1.
  destruct (shutdown_ok c H s ids L) as (s' & K1 & K2). exists s'. split; [exact K1|]. intros NO h. destruct (p_live s' h) as [b|] eqn:EB; [|reflexivity].
  destruct (K2 h b EB) as (id & r & _ & _ & O). exfalso. exact (NO _ O).
Qed.

(** A case: two regions interleaved, one of them opened twice. *)
Definition at_ (t : Z) (h : hev) : env * hev := (Env t (fun i => (t * 10 + Z.of_nat i)%Z), h).
Definition c62_cfg (agg : bool) : cfg := Cfg agg ["CYCLES"; "MISSES"] [].
Definition c62_H : list (env * hev) :=
  [at_ 1 (HInit "a" CPU); at_ 2 (HEnter "a"); at_ 3 (HInit "b" NOEV); at_ 4 (HEnter "b"); at_ 6 (HExit "a"); at_ 7 (HMetric "a" "trip" (inject_Z 5)); at_ 8 (HFin "a");
   at_ 9 (HExit "b"); at_ 10 (HInit "a" CPU); at_ 11 (HEnter "a"); at_ 21 (HExit "a"); at_ 22 (HMetric "a" "trip" (inject_Z 7)); at_ 23 (HFin "a"); at_ 24 (HFin "b")].
Lemma foreign us H u : forallb (fun e => existsb (String.eqb (uuid (snd e))) us) H = true -> ~ In u us -> of_region u H = [].
Proof.
  intros K1 N. unfold of_region. destruct (filter (fun e => String.eqb (uuid (snd e)) u) H) as [|e l] eqn:EF; [reflexivity|]. assert (I : In e (e :: l)) by (left; reflexivity). rewrite <- EF in I. apply filter_In in I as [I1 I2].
  rewrite forallb_forall in K1. specialize (K1 e I1). apply existsb_exists in K1 as (w & W1 & W2). apply String.eqb_eq in I2, W2. exfalso. apply N. congruence.
Qed.
Definition all_closed (us : list string) (H : list (env * hev)) : bool :=
  forallb (fun e => existsb (String.eqb (uuid (snd e))) us) H && forallb (fun u => match phase_of H u with Some Closed => true | _ => false end) us.
Lemma closed_dec us H : all_closed us H = true -> protocol H /\ forall u, ~ open_in H u.
Proof.
  intros K. apply andb_prop in K as [K1 K2]. assert (G : forall u, phase_of H u = Some Closed).
  { intros u. destruct (in_dec string_dec u us) as [I|N]; [|unfold phase_of; rewrite (foreign us H u K1 N); reflexivity].
    rewrite forallb_forall in K2. specialize (K2 u I). destruct (phase_of H u) as [[| |]|]; [reflexivity|discriminate..]. }
  split; intros u; [rewrite G; discriminate|]. intros [O|O]; rewrite G in O; discriminate.
Qed.
Theorem C62_example : protocol c62_H /\ of_region "a" c62_H <> [] /\ (forall u, ~ open_in c62_H u).
Proof. destruct (closed_dec ["a"; "b"] c62_H eq_refl) as [P O]. split; [exact P|]. split; [discriminate|exact O]. Qed.

(** It is the program that has to keep to the protocol: an instrumented function called again while it is running
    (recursion, or a second thread), each activation on its own following the protocol, ends the program. *)
Definition body_of (u : string) (t : Z) : list (env * hev) := [at_ t (HInit u CPU); at_ (t + 1) (HEnter u)].
Definition tail_of (u : string) (t : Z) : list (env * hev) := [at_ t (HExit u); at_ (t + 1) (HFin u)].
Theorem C62_reentry_refuted : exists H1 H2 H3, protocol (H1 ++ H3) /\ protocol H2 /\ (forall u, ~ open_in H2 u) /\ forall c, drive c boot (H1 ++ H2 ++ H3) = Down.
Proof.
  exists (body_of "a" 1), (body_of "a" 3 ++ tail_of "a" 5), (tail_of "a" 7). split; [apply (closed_dec ["a"]); reflexivity|]. split; [apply (closed_dec ["a"]); reflexivity|]. split; [apply (closed_dec ["a"]); reflexivity|].
  intros c. destruct c as [a l1 l2]. destruct a, l1; reflexivity.
Qed.

(* ======================= C63 ======================= *)
(** Every enter and exit of a region is recorded, with its own start, duration and counters. *)
Theorem C63_events : forall c H s ids u, protocol H -> c_agg c = false -> drive c boot H = Up s ids -> of_region u H <> [] ->
  exists r, s_regs s (ids u) = Some r /\ r_uuid r = u /\ set_of H u = Some (r_set r) /\ r_starts r = starts H u /\ r_durs r = map duration (spans H u) /\
    r_counts r = match events c (r_set r) with [] => [] | _ => map (deltas (List.length (events c (r_set r)))) (spans H u) end.
Proof.
  intros c H s ids u P A E NE. destruct (drive_inv c H P) as (s1 & ids1 & E1 & (L & NI & D)). rewrite E in E1. inversion E1; subst s1 ids1.
  destruct (proj1 (C62_ids c H s ids P E) u NE) as (r & R & UR). exists r. pose proof (D _ r R) as DR. rewrite UR in DR. destruct (d_plain _ _ _ _ DR A) as (Q1 & Q2 & Q3).
  split; [exact R|]. split; [exact UR|]. split; [exact (d_set _ _ _ _ DR)|]. split; [exact Q1|]. split; [exact Q2|]. rewrite Q3. unfold nev. destruct (events c (r_set r)); reflexivity.
Qed.
(** Aggregated: the number, mean, variance, least and greatest of the same values. *)
Theorem C63_aggregated : forall c H s ids u, protocol H -> c_agg c = true -> drive c boot H = Up s ids -> of_region u H <> [] ->
  exists r, s_regs s (ids u) = Some r /\ r_uuid r = u /\ set_of H u = Some (r_set r) /\ r_first r = first_start (starts H u) /\
    (spans H u = [] -> r_rt r = None /\ r_cnt r = []) /\
    (spans H u <> [] -> (exists q, r_rt r = Some q /\ summary (map (fun p => inject_Z (duration p)) (spans H u)) q) /\
      List.length (r_cnt r) = List.length (events c (r_set r)) /\
      forall i q, nth_error (r_cnt r) i = Some q ->
        (forall p, In p (spans H u) -> (- 2 ^ 63 <= rd (snd p) i - rd (fst p) i < 2 ^ 63)%Z) ->
        summary (map (fun p => inject_Z (rd (snd p) i - rd (fst p) i)) (spans H u)) q).
Proof.
  intros c H s ids u P A E NE. destruct (drive_inv c H P) as (s1 & ids1 & E1 & (L & NI & D)). rewrite E in E1. inversion E1; subst s1 ids1.
  destruct (proj1 (C62_ids c H s ids P E) u NE) as (r & R & UR). exists r. pose proof (D _ r R) as DR. rewrite UR in DR. destruct (d_agg _ _ _ _ DR A) as (Q1 & Q2 & Q3 & Q4).
  split; [exact R|]. split; [exact UR|]. split; [exact (d_set _ _ _ _ DR)|]. split; [exact Q3|]. split.
  - intros Z. rewrite Q1, Q4, Z. split; [reflexivity|]. destruct (Nat.eqb (nev c (r_set r)) 0); reflexivity.
  - intros NZ. assert (Q5 : r_cnt r = map (fun i => count_of (counter (nev c (r_set r)) i (spans H u))) (seq 0 (nev c (r_set r)))).
    { rewrite Q4. destruct (Nat.eqb_spec (nev c (r_set r)) 0) as [->|_]; [reflexivity|]. destruct (spans H u); [congruence|reflexivity]. }
    split; [|split].
    + destruct (stat_of (times (spans H u))) as [q|] eqn:ES; [|destruct (spans H u); [congruence|discriminate]]. exists q. split; [rewrite Q1; reflexivity|apply stat_summary; exact ES].
    + rewrite Q5, map_length, seq_length. reflexivity.
    + intros i q EQ RN. rewrite Q5 in EQ. assert (LI : i < nev c (r_set r)). { assert (K : nth_error (map (fun i => count_of (counter (nev c (r_set r)) i (spans H u))) (seq 0 (nev c (r_set r)))) i <> None) by congruence. apply nth_error_Some in K. rewrite map_length, seq_length in K. exact K. } 
      rewrite (map_nth_error _ i (seq 0 (nev c (r_set r))) (d := i)) in EQ by (rewrite (nth_error_nth' _ 0) by (rewrite seq_length; exact LI); rewrite seq_nth by exact LI; reflexivity).
      inversion EQ; subst q. apply count_summary.
      * unfold counter. destruct (spans H u); [congruence|discriminate].
      * intros x X. unfold counter in X. apply in_map_iff in X as (p & <- & X). specialize (RN p X). unfold ll_min, ll_max. rewrite <- !Zle_Qle. lia.
Qed.
(** The metrics a program reports: the statistics of the reported values, by name. *)
Definition stat_named (l : list (string * stat)) (n : string) : option stat := option_map snd (find (fun p => String.eqb (fst p) n) l).
Theorem C63_metrics : forall c H s ids u n, protocol H -> drive c boot H = Up s ids -> of_region u H <> [] ->
  exists r, s_regs s (ids u) = Some r /\ r_uuid r = u /\
    match stat_named (r_static r) n with Some q => summary (metrics H u n) q | None => metrics H u n = [] end.
Proof.
  intros c H s ids u n P E NE. destruct (drive_inv c H P) as (s1 & ids1 & E1 & (L & NI & D)). rewrite E in E1. inversion E1; subst s1 ids1.
  destruct (proj1 (C62_ids c H s ids P E) u NE) as (r & R & UR). exists r. pose proof (D _ r R) as DR. rewrite UR in DR. split; [exact R|]. split; [exact UR|].
  assert (EA : stat_named (r_static r) n = assoc (r_static r) n). { unfold stat_named. induction (r_static r) as [|[m q] l IH]; [reflexivity|]. cbn. destruct (String.eqb m n); [reflexivity|exact IH]. }
  rewrite EA, (d_static _ _ _ _ DR n). destruct (stat_of (metrics H u n)) as [q|] eqn:ES; [apply stat_summary; exact ES|]. destruct (metrics H u n); [reflexivity|discriminate].
Qed.
Theorem C63_example : protocol c62_H /\ map duration (spans c62_H "a") = [4; 10]%Z /\ starts c62_H "a" = [2; 11]%Z /\ metrics c62_H "a" "trip" = [inject_Z 5; inject_Z 7] /\
  match drive (c62_cfg true) boot c62_H with Up s ids => match s_regs s (ids "a") with Some r => match r_rt r with Some q => Qeq_bool (q_mean q) (inject_Z 7) && Qeq_bool (q_var q) (inject_Z 9) && Nat.eqb (List.length (r_cnt r)) 2 | None => false end | None => false end | _ => false end = true.
Proof. split; [exact (proj1 C62_example)|]. repeat split; reflexivity. Qed.

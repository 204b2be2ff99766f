From Coq Require Import List String ZArith QArith Bool Arith Lia Qfield.
From Verif Require Import Instr InstrSpec.
Import ListNotations.
Local Open Scope string_scope.
Local Open Scope list_scope.
Local Open Scope nat_scope.

(** * Welford *)
Section Welford.
Local Open Scope Q_scope.
Lemma qsum_app l x : qsum (l ++ [x]) == qsum l + x.
Proof. induction l as [|y l IH]; cbn [qsum app]; [ring|]. rewrite IH. ring. Qed.
Fixpoint sq (m : Q) (l : list Q) : Q := match l with [] => 0 | x :: l => (x - m) * (x - m) + sq m l end.
Lemma sq_map m l : qsum (map (fun x => (x - m) * (x - m)) l) = sq m l.
Proof. induction l as [|y l IH]; cbn; [reflexivity|]. rewrite IH. reflexivity. Qed.
Lemma sq_app m l x : sq m (l ++ [x]) == sq m l + (x - m) * (x - m).
Proof. induction l as [|y l IH]; cbn [sq app]; [ring|]. rewrite IH. ring. Qed.
Definition N (l : list Q) : Q := inject_Z (Z.of_nat (List.length l)).
Lemma N_cons x l : N (x :: l) == N l + 1.
Proof. unfold N. cbn [List.length]. rewrite Nat2Z.inj_succ. unfold Z.succ. rewrite inject_Z_plus. reflexivity. Qed.
Lemma N_app l x : N (l ++ [x]) == N l + 1.
Proof. unfold N. rewrite app_length. cbn [List.length]. rewrite Nat2Z.inj_add. rewrite inject_Z_plus. reflexivity. Qed.
Lemma N_nonneg l : 0 <= N l.
Proof. unfold N. replace 0 with (inject_Z 0) by reflexivity. rewrite <- Zle_Qle. lia. Qed.
Lemma N1_pos l : ~ N l + 1 == 0.
Proof. pose proof (N_nonneg l). intros E. rewrite <- E in H at 1. assert (1 <= 0) by (rewrite <- (Qplus_le_r _ _ (N l)); rewrite Qplus_0_r; exact H). discriminate (H0 eq_refl) || (unfold Qle in H0; cbn in H0; lia). Qed.
(** moving the centre *)
Lemma sq_shift m m' l : sq m' l == sq m l + 2 * (m - m') * (qsum l - N l * m) + N l * ((m - m') * (m - m')).
Proof.
  induction l as [|y l IH]; cbn [sq qsum]; [unfold N; cbn; ring|]. rewrite IH, N_cons. ring.
Qed.
Record core (l : list Q) (s : stat) : Prop := {
  c_n : q_n s = Z.of_nat (List.length l);
  c_mean : q_mean s * N l == qsum l;
  c_var : q_var s * N l == sq (q_mean s) l;
  c_min : forall x, In x l -> q_min s <= x;
  c_max : forall x, In x l -> x <= q_max s }.
Lemma core_step l s x : core l s -> core (l ++ [x]) (welford s x).
Proof.
  intros [Hn Hm Hv H1 H2]. pose proof (N1_pos l) as NZ.
  assert (EN : inject_Z (q_n s + 1) == N l + 1) by (rewrite Hn, inject_Z_plus; reflexivity).
  constructor; cbn [welford q_n q_mean q_var q_min q_max].
  - rewrite Hn, app_length. cbn. lia.
  - rewrite N_app, qsum_app, <- Hm, EN. field. exact NZ.
  - rewrite N_app, sq_app, (sq_shift (q_mean s)), <- Hm, <- Hv, EN. field. exact NZ.
  - intros y Hy. apply in_app_or in Hy. destruct (Qlt_le_dec x (q_min s)) as [L|L]; destruct Hy as [Hy|[<-|[]]]; auto; try apply Qle_refl.
    apply Qle_trans with (q_min s); [apply Qlt_le_weak; exact L|auto].
  - intros y Hy. apply in_app_or in Hy. destruct (Qlt_le_dec (q_max s) x) as [L|L]; destruct Hy as [Hy|[<-|[]]]; auto; try apply Qle_refl.
    apply Qle_trans with (q_max s); [auto|apply Qlt_le_weak; exact L].
Qed.
Lemma core_first x : core [x] (first_stat x).
Proof.
  constructor; cbn; auto; try (intros y [<-|[]]; apply Qle_refl).
  - unfold N; cbn. ring.
  - unfold N; cbn. ring.
Qed.
Lemma core_empty : core [] empty_stat.
Proof. constructor; cbn; auto; try (intros y []); unfold N; cbn; ring. Qed.
(** min and max are attained *)
Definition hit (d : Q) (l : list Q) (m : Q) : Prop := m == d \/ exists x, In x l /\ x == m.
Lemma hit_min d l s x : hit d l (q_min s) -> hit d (l ++ [x]) (q_min (welford s x)).
Proof.
  intros H. cbn [welford q_min]. destruct (Qlt_le_dec x (q_min s)); [right; exists x; split; [apply in_or_app; right; left; reflexivity|reflexivity]|].
  destruct H as [H|(y & H1 & H2)]; [left; exact H|right; exists y; split; [apply in_or_app; auto|exact H2]].
Qed.
Lemma hit_max d l s x : hit d l (q_max s) -> hit d (l ++ [x]) (q_max (welford s x)).
Proof.
  intros H. cbn [welford q_max]. destruct (Qlt_le_dec (q_max s) x); [right; exists x; split; [apply in_or_app; right; left; reflexivity|reflexivity]|].
  destruct H as [H|(y & H1 & H2)]; [left; exact H|right; exists y; split; [apply in_or_app; auto|exact H2]].
Qed.
Definition stat_of (l : list Q) : option stat := match l with [] => None | x :: xs => Some (fold_left welford xs (first_stat x)) end.
Definition count_of (l : list Q) : stat := fold_left welford l empty_stat.
Lemma stat_snoc l x : stat_of (l ++ [x]) = Some (match stat_of l with None => first_stat x | Some q => welford q x end).
Proof. destruct l as [|y l]; cbn; [reflexivity|]. rewrite fold_left_app. reflexivity. Qed.
Lemma count_snoc l x : count_of (l ++ [x]) = welford (count_of l) x.
Proof. unfold count_of. rewrite fold_left_app. reflexivity. Qed.
Lemma stat_summary l s : stat_of l = Some s -> summary l s.
Proof.
  assert (C : forall l s, stat_of l = Some s -> core l s /\ (exists x, In x l /\ x == q_min s) /\ exists x, In x l /\ x == q_max s).
  { clear. intros l. induction l as [|x l IH] using rev_ind; intros s H; [discriminate|]. rewrite stat_snoc in H. destruct (stat_of l) as [q|] eqn:E.
    - inversion H; subst s; clear H. destruct (IH q eq_refl) as (C & M1 & M2). split; [apply core_step; exact C|].
      split; [destruct (hit_min (q_min q) l q x) as [K|K]; [right; exact M1| |exact K]|destruct (hit_max (q_max q) l q x) as [K|K]; [right; exact M2| |exact K]].
      + destruct M1 as (y & Y1 & Y2). exists y. split; [apply in_or_app; auto|]. rewrite K. exact Y2.
      + destruct M2 as (y & Y1 & Y2). exists y. split; [apply in_or_app; auto|]. rewrite K. exact Y2.
    - inversion H; subst s; clear H. destruct l; [|discriminate]. split; [apply core_first|]. split; exists x; (split; [left; reflexivity|reflexivity]). }
  intros H. destruct (C l s H) as ([A1 A2 A3 A4 A5] & M1 & M2). constructor; auto. rewrite sq_map. exact A3.
Qed.
Lemma count_summary l : l <> [] -> (forall x, In x l -> ll_min <= x /\ x <= ll_max) -> summary l (count_of l).
Proof.
  assert (C : forall l, core l (count_of l) /\ hit ll_max l (q_min (count_of l)) /\ hit ll_min l (q_max (count_of l))).
  { clear. intros l. induction l as [|x l IH] using rev_ind; [split; [apply core_empty|split; left; reflexivity]|]. rewrite count_snoc.
    destruct IH as (C & M1 & M2). split; [apply core_step; exact C|]. split; [apply hit_min; exact M1|apply hit_max; exact M2]. }
  intros NE R. destruct (C l) as ([A1 A2 A3 A4 A5] & M1 & M2). destruct l as [|x l]; [congruence|]. destruct (R x (or_introl eq_refl)) as [R1 R2].
  constructor; auto.
  - rewrite sq_map. exact A3.
  - split; [exact A4|]. destruct M1 as [M1|M1]; [|exact M1]. exists x. split; [left; reflexivity|]. apply Qle_antisym; [rewrite M1; exact R2|apply A4; left; reflexivity].
  - split; [exact A5|]. destruct M2 as [M2|M2]; [|exact M2]. exists x. split; [left; reflexivity|]. apply Qle_antisym; [apply A5; left; reflexivity|rewrite M2; exact R1].
Qed.
End Welford.

(** * Histories *)
Lemma of_same u H e : uuid (snd e) = u -> of_region u (H ++ [e]) = of_region u H ++ [e].
Proof. intros E. unfold of_region. rewrite filter_app. cbn [filter]. rewrite E, String.eqb_refl. reflexivity. Qed.
Lemma of_other u H e : uuid (snd e) <> u -> of_region u (H ++ [e]) = of_region u H.
Proof. intros E. unfold of_region. rewrite filter_app. cbn [filter]. destruct (String.eqb_spec (uuid (snd e)) u); [contradiction|]. apply app_nil_r. Qed.
Lemma phase_same u H e : uuid (snd e) = u -> phase_of (H ++ [e]) u = follow (phase_of H u) e.
Proof. intros E. unfold phase_of. rewrite of_same by exact E. rewrite fold_left_app. reflexivity. Qed.
Lemma phase_other u H e : uuid (snd e) <> u -> phase_of (H ++ [e]) u = phase_of H u.
Proof. intros E. unfold phase_of. rewrite of_other by exact E. reflexivity. Qed.
Lemma protocol_prefix H e : protocol (H ++ [e]) -> protocol H /\ follow (phase_of H (uuid (snd e))) e <> None.
Proof.
  intros P. split.
  - intros u. destruct (string_dec (uuid (snd e)) u) as [E|E]; specialize (P u); [rewrite (phase_same u H e E) in P|rewrite (phase_other u H e E) in P; exact P].
    intros K. rewrite K in P. apply P. reflexivity.
  - specialize (P (uuid (snd e))). rewrite phase_same in P by reflexivity. exact P.
Qed.
Lemma spans_same u H e : uuid (snd e) = u -> spans_of (H ++ [e]) u = span_step (spans_of H u) e.
Proof. intros E. unfold spans_of. rewrite of_same by exact E. rewrite fold_left_app. reflexivity. Qed.
Lemma set_same u H e : uuid (snd e) = u -> set_of (H ++ [e]) u = set_step (set_of H u) e.
Proof. intros E. unfold set_of. rewrite of_same by exact E. rewrite fold_left_app. reflexivity. Qed.
Lemma metrics_same u H e n : uuid (snd e) = u -> metrics (H ++ [e]) u n = metrics H u n ++ match snd e with HMetric _ m x => if String.eqb m n then [x] else [] | _ => [] end.
Proof. intros E. unfold metrics. rewrite of_same by exact E. rewrite flat_map_app. cbn [flat_map]. rewrite app_nil_r. reflexivity. Qed.

Lemma setn_same {A} (f : nat -> A) k v : setn f k v k = v. Proof. unfold setn. rewrite Nat.eqb_refl. reflexivity. Qed.
Lemma setn_other {A} (f : nat -> A) k v x : x <> k -> setn f k v x = f x. Proof. unfold setn. destruct (Nat.eqb_spec x k); congruence. Qed.
Lemma sets_same {A} (f : string -> A) k v : sets f k v k = v. Proof. unfold sets. rewrite String.eqb_refl. reflexivity. Qed.
Lemma sets_other {A} (f : string -> A) k v x : x <> k -> sets f k v x = f x. Proof. unfold sets. destruct (String.eqb_spec x k); congruence. Qed.

Lemma nodup_snoc (l : list string) x : NoDup l -> ~ In x l -> NoDup (l ++ [x]).
Proof.
  induction l as [|y l IH]; intros ND N; cbn; [constructor; [intros []|constructor]|]. apply NoDup_cons_iff in ND as [N1 N2]. constructor.
  - intros K. apply in_app_or in K as [K|[K|[]]]; [contradiction|]. apply N. left. congruence.
  - apply IH; [exact N2|]. intros K. apply N. right. exact K.
Qed.
(** * The life of the event sets *)
Section Life.
Variable c : cfg.
Definition busy (e : evset) : bool := negb (Nat.eqb (nev c e) 0).
Record life (m : nat) (H : list (env * hev)) (s : state) (ids : string -> nat) : Prop := {
  l_reg : forall id r, s_regs s id = Some r -> s_names s (r_uuid r) = Some id /\ id < s_next s;
  l_name : forall u id, s_names s u = Some id -> exists r, s_regs s id = Some r /\ r_uuid r = u;
  l_open : forall u, open_in H u -> s_names s u = Some (ids u);
  l_sleep : forall u, In u (s_sleep s) -> phase_of H u = Some Closed /\ s_names s u <> None /\ s_ids s u = s_names s u;
  l_awake : forall u, ~ In u (s_sleep s) -> s_ids s u = None;
  l_nodup : NoDup (s_sleep s);
  l_len : List.length (s_sleep s) <= m;
  l_papi : forall id r, s_regs s id = Some r -> match r_papi r with
    | Some h => (open_in H (r_uuid r) /\ p_live s h = Some (busy (r_set r))) \/ (In (r_uuid r) (s_sleep s) /\ p_live s h = Some false)
    | None => ~ open_in H (r_uuid r) /\ ~ In (r_uuid r) (s_sleep s) end;
  l_inj : forall id id' r r' h, s_regs s id = Some r -> s_regs s id' = Some r' -> r_papi r = Some h -> r_papi r' = Some h -> id = id';
  l_live : forall h b, p_live s h = Some b -> h < p_next s /\ exists id r, s_regs s id = Some r /\ r_papi r = Some h;
  l_fresh : forall u, s_names s u = None -> of_region u H = [] }.

Lemma life_init : life cache_size [] init (fun _ => 0).
Proof.
  constructor; cbn; try discriminate; auto; try tauto; try lia.
  - intros u [K|K]; discriminate K.
  - constructor.
Qed.
Lemma closed_not_open H u : phase_of H u = Some Closed -> ~ open_in H u.
Proof. intros E [K|K]; congruence. Qed.

Lemma start_eq e h p b : p h = Some b -> papi_start c e (Some h) p h = Some (if busy e then true else b).
Proof. intros E. unfold papi_start, busy. destruct (Nat.eqb (nev c e) 0); cbn; [exact E|]. rewrite E. apply setn_same. Qed.
Lemma start_other e h p k : k <> h -> papi_start c e (Some h) p k = p k.
Proof. intros N. unfold papi_start. destruct (Nat.eqb (nev c e) 0); [reflexivity|]. destruct (p h); [apply setn_other; exact N|reflexivity]. Qed.
Lemma stop_eq e h p b : p h = Some b -> (busy e = false -> b = false) -> papi_stop c e (Some h) p h = Some false.
Proof. intros E B. unfold papi_stop, busy in *. destruct (Nat.eqb (nev c e) 0); cbn in *; [rewrite E; f_equal; apply B; reflexivity|]. rewrite E. apply setn_same. Qed.
Lemma stop_other e h p k : k <> h -> papi_stop c e (Some h) p k = p k.
Proof. intros N. unfold papi_stop. destruct (Nat.eqb (nev c e) 0); [reflexivity|]. destruct (p h); [apply setn_other; exact N|reflexivity]. Qed.

(** enter, exit and metric only change the measurements *)
Lemma life_put H s ids id r r' e : life cache_size H s ids -> s_regs s id = Some r -> r_uuid r' = r_uuid r -> r_set r' = r_set r -> r_papi r' = r_papi r ->
  uuid (snd e) = r_uuid r -> (forall p, next p (snd e) = Some Closed -> False) -> open_in H (r_uuid r) -> protocol (H ++ [e]) -> life cache_size (H ++ [e]) (put s id r') ids.
Proof.
  intros L R EU ES EP UE NC OP PR.
  assert (OE : forall v, open_in (H ++ [e]) v <-> open_in H v).
  { intros v. unfold open_in. destruct (string_dec (uuid (snd e)) v) as [E|E]; [|rewrite (phase_other v H e E); tauto].
    rewrite (phase_same v H e E). specialize (PR v). rewrite (phase_same v H e E) in PR. rewrite UE in E. rewrite <- E in *.
    unfold open_in in OP. clear - PR NC OP. unfold follow in *. destruct (phase_of H (r_uuid r)) as [p|]; [|exfalso; apply PR; reflexivity]. pose proof (NC p) as NCp.
    destruct (next p (snd e)) as [[| |]|]; [exfalso; apply NCp; reflexivity| | |exfalso; apply PR; reflexivity]; split; auto. }
  assert (RG : forall i q, s_regs (put s id r') i = Some q -> exists q0, s_regs s i = Some q0 /\ r_uuid q = r_uuid q0 /\ r_set q = r_set q0 /\ r_papi q = r_papi q0).
  { intros i q K. cbn [put s_regs] in K. unfold setn in K. destruct (Nat.eqb_spec i id) as [->|N]; [inversion K; subst q; eauto|exists q; auto]. }
  constructor; try (cbn [put s_next s_names s_sleep s_ids p_next p_live]).
  - intros i q K. destruct (RG i q K) as (q0 & K0 & -> & _). exact (l_reg _ _ _ _ L i q0 K0).
  - intros u i K. destruct (l_name _ _ _ _ L u i K) as (q & K1 & K2). cbn [put s_regs]. unfold setn. destruct (Nat.eqb_spec i id) as [->|N]; [|eauto].
    exists r'. split; [reflexivity|]. rewrite EU. congruence.
  - intros u K. apply OE in K. exact (l_open _ _ _ _ L u K).
  - intros u K. destruct (l_sleep _ _ _ _ L u K) as (K1 & K2 & K3). split; [|auto]. rewrite phase_other; [exact K1|]. intros E. rewrite E in UE.
    apply (closed_not_open H u K1). rewrite UE. exact OP.
  - exact (l_awake _ _ _ _ L).
  - exact (l_nodup _ _ _ _ L).
  - exact (l_len _ _ _ _ L).
  - intros i q K. destruct (RG i q K) as (q0 & K0 & -> & -> & ->). pose proof (l_papi _ _ _ _ L i q0 K0) as P. destruct (r_papi q0); rewrite OE; exact P.
  - intros i i' q q' h K K' E E'. destruct (RG i q K) as (q0 & K0 & _ & _ & E1). destruct (RG i' q' K') as (q0' & K0' & _ & _ & E1').
    rewrite E1 in E. rewrite E1' in E'. exact (l_inj _ _ _ _ L i i' q0 q0' h K0 K0' E E').
  - intros h b K. destruct (l_live _ _ _ _ L h b K) as (K1 & i & q & K2 & K3). split; [exact K1|]. cbn [put s_regs]. unfold setn. exists i. destruct (Nat.eqb_spec i id) as [->|N]; [exists r'; split; [reflexivity|congruence]|eauto].
  - intros u K. rewrite of_other; [exact (l_fresh _ _ _ _ L u K)|]. intros E. assert (K' : s_names s u = Some id) by (rewrite <- E, UE; apply (l_reg _ _ _ _ L id r R)). congruence.
Qed.

(** init *)
Lemma life_register H s ids v u e : life cache_size H s ids -> protocol (H ++ [(v, HInit u e)]) ->
  exists id s', register c u e s = Ret id s' /\ life cache_size (H ++ [(v, HInit u e)]) s' (sets ids u id) /\
    (forall v, v <> u -> s_names s' v = s_names s v) /\ s_names s' u = Some id /\
    (forall i, i <> id -> s_regs s' i = s_regs s i) /\
    (exists r', s_regs s' id = Some r' /\ match s_regs s id with Some r => r' = set_papi r (r_papi r') /\ s_names s u = Some id | None => s_names s u = None /\ r' = set_papi (new_region u e) (r_papi r') end).
Proof.
  intros L PR. assert (PC : phase_of H u = Some Closed).
  { apply protocol_prefix in PR as [_ PR]. cbn [snd uuid] in PR. unfold follow in PR. destruct (phase_of H u) as [[| |]|]; cbn in PR; congruence. }
  set (ev := (v, HInit u e)) in *.
  assert (OS : open_in (H ++ [ev]) u) by (left; rewrite phase_same by reflexivity; rewrite PC; reflexivity).
  assert (OO : forall w, w <> u -> (open_in (H ++ [ev]) w <-> open_in H w)) by (intros w N; unfold open_in; rewrite phase_other by (cbn; congruence); tauto).
  pose proof (closed_not_open H u PC) as NO. unfold register. destruct (s_ids s u) as [id|] eqn:EI.
  - (* sleeping *)
    assert (IN : In u (s_sleep s)). { destruct (in_dec string_dec u (s_sleep s)) as [K|K]; [exact K|]. rewrite (l_awake _ _ _ _ L u K) in EI. discriminate. }
    destruct (l_sleep _ _ _ _ L u IN) as (_ & NN & EQ). rewrite EI in EQ. symmetry in EQ. destruct (l_name _ _ _ _ L u id EQ) as (r & R & UR). rewrite R.
    eexists. eexists. split; [reflexivity|]. cbn [s_names s_regs]. split; [|split; [auto|split; [exact EQ|split; [auto|exists r; split; [exact R|]; rewrite R; split; [destruct r; reflexivity|exact EQ]]]]].
    pose proof (l_papi _ _ _ _ L id r R) as P. rewrite UR in P. destruct (r_papi r) as [h|] eqn:EH; [|exfalso; tauto]. destruct P as [[K _]|[_ LV]]; [contradiction|].
    assert (SL : forall w, In w (remove string_dec u (s_sleep s)) <-> In w (s_sleep s) /\ w <> u) by (intros w; split; [apply in_remove|intros [K1 K2]; apply in_in_remove; auto]).
    constructor; cbn [s_regs s_names s_sleep s_ids s_next p_next p_live].
    + exact (l_reg _ _ _ _ L).
    + exact (l_name _ _ _ _ L).
    + intros w K. destruct (string_dec w u) as [->|N]; [rewrite sets_same; exact EQ|]. rewrite sets_other by exact N. apply (l_open _ _ _ _ L), OO; auto.
    + intros w K. apply SL in K as [K N]. destruct (l_sleep _ _ _ _ L w K) as (K1 & K2 & K3). rewrite phase_other by (cbn; congruence). rewrite sets_other by exact N. auto.
    + intros w K. destruct (string_dec w u) as [->|N]; [apply sets_same|]. rewrite sets_other by exact N. apply (l_awake _ _ _ _ L). intros Q. apply K, SL. auto.
    + clear - L. pose proof (l_nodup _ _ _ _ L) as ND. induction (s_sleep s) as [|x l IH]; [constructor|]. apply NoDup_cons_iff in ND as [N1 N2]. cbn. destruct (string_dec u x); [auto|].
      constructor; [|auto]. intros Q. apply in_remove in Q. tauto.
    + pose proof (l_len _ _ _ _ L). assert (forall l, List.length (remove string_dec u l) <= List.length l). { clear. induction l as [|x l IH]; cbn; [lia|]. destruct (string_dec u x); cbn; lia. } specialize (H1 (s_sleep s)). lia.
    + intros i q K. destruct (Nat.eq_dec i id) as [->|NI].
      * rewrite R in K. inversion K; subst q. rewrite EH, UR. left. split; [exact OS|]. rewrite (start_eq _ _ _ _ LV). destruct (busy (r_set r)); reflexivity.
      * assert (NU : r_uuid q <> u). { intros E. destruct (l_reg _ _ _ _ L i q K) as [K1 _]. congruence. }
        pose proof (l_papi _ _ _ _ L i q K) as P. destruct (r_papi q) as [k|] eqn:EK.
        -- assert (NK : k <> h). { intros ->. apply NI. exact (l_inj _ _ _ _ L i id q r h K R EK EH). }
           rewrite (start_other _ _ _ _ NK), (OO _ NU), SL. tauto.
        -- rewrite (OO _ NU), SL. tauto.
    + exact (l_inj _ _ _ _ L).
    + intros k b K. destruct (Nat.eq_dec k h) as [->|NK]; [destruct (l_live _ _ _ _ L h false LV) as [K1 _]; split; [exact K1|eauto]|]. rewrite start_other in K by exact NK. exact (l_live _ _ _ _ L k b K).
    + intros w K. rewrite of_other; [exact (l_fresh _ _ _ _ L w K)|]. cbn. congruence.
  - assert (NS : ~ In u (s_sleep s)). { intros K. destruct (l_sleep _ _ _ _ L u K) as (_ & N & E). congruence. }
    assert (FR : p_live s (p_next s) = None). { destruct (p_live s (p_next s)) as [b|] eqn:E; [|reflexivity]. destruct (l_live _ _ _ _ L _ b E) as [K _]. lia. }
    destruct (s_names s u) as [id|] eqn:EN.
    + (* known *)
      destruct (l_name _ _ _ _ L u id EN) as (r & R & UR). rewrite R. pose proof (l_papi _ _ _ _ L id r R) as P. rewrite UR in P.
      destruct (r_papi r) as [h|] eqn:EH; [exfalso; tauto|].
      eexists. eexists. split; [reflexivity|]. cbn [s_names s_regs]. split; [|split; [auto|split; [exact EN|split; [intros i NI; apply setn_other; exact NI|exists (set_papi r (Some (p_next s))); split; [apply setn_same|]; rewrite R; split; [destruct r; reflexivity|reflexivity]]]]].
      constructor; cbn [s_regs s_names s_sleep s_ids s_next p_next p_live].
      * intros i q K. unfold setn in K. destruct (Nat.eqb_spec i id) as [->|N]; [inversion K; subst q; apply (l_reg _ _ _ _ L id r R)|exact (l_reg _ _ _ _ L i q K)].
      * intros w i K. destruct (l_name _ _ _ _ L w i K) as (q & K1 & K2). unfold setn. destruct (Nat.eqb_spec i id) as [->|N]; [|eauto]. eexists. split; [reflexivity|]. cbn. congruence.
      * intros w K. destruct (string_dec w u) as [->|N]; [rewrite sets_same; exact EN|]. rewrite sets_other by exact N. apply (l_open _ _ _ _ L), OO; auto.
      * intros w K. destruct (l_sleep _ _ _ _ L w K) as (K1 & K2 & K3). rewrite phase_other by (cbn; intros ->; contradiction). auto.
      * exact (l_awake _ _ _ _ L).
      * exact (l_nodup _ _ _ _ L).
      * exact (l_len _ _ _ _ L).
      * intros i q K. unfold setn in K. destruct (Nat.eqb_spec i id) as [->|NI].
        -- inversion K; subst q. cbn [set_papi r_papi r_uuid r_set]. left. rewrite UR. split; [exact OS|]. rewrite (start_eq _ _ _ false) by apply setn_same. destruct (busy (r_set r)); reflexivity.
        -- assert (NU : r_uuid q <> u). { intros E. destruct (l_reg _ _ _ _ L i q K) as [K1 _]. congruence. }
           pose proof (l_papi _ _ _ _ L i q K) as P'. destruct (r_papi q) as [k|] eqn:EK; [|rewrite (OO _ NU); exact P'].
           assert (NK : k <> p_next s). { intros ->. destruct P' as [[_ P']|[_ P']]; congruence. }
           rewrite (start_other _ _ _ _ NK), setn_other, (OO _ NU) by exact NK. exact P'.
      * assert (NH : forall i q, s_regs s i = Some q -> r_papi q <> Some (p_next s)). { intros i q K E. pose proof (l_papi _ _ _ _ L i q K) as P'. rewrite E in P'. destruct P' as [[_ P']|[_ P']]; congruence. }
        intros i i' q q' h K K' E E'. unfold setn in K, K'. destruct (Nat.eqb_spec i id) as [->|NI], (Nat.eqb_spec i' id) as [->|NI']; auto.
        -- inversion K; subst q. cbn in E. exfalso. apply (NH i' q' K'). congruence.
        -- inversion K'; subst q'. cbn in E'. exfalso. apply (NH i q K). congruence.
        -- exact (l_inj _ _ _ _ L i i' q q' h K K' E E').
      * intros k b K. destruct (Nat.eq_dec k (p_next s)) as [->|NK]; [split; [lia|]; exists id, (set_papi r (Some (p_next s))); split; [apply setn_same|reflexivity]|].
        rewrite start_other, setn_other in K by exact NK. destruct (l_live _ _ _ _ L k b K) as (K1 & i & q & K2 & K3). split; [lia|]. exists i, q. rewrite setn_other; [auto|]. intros ->. congruence.
      * intros w K. rewrite of_other; [exact (l_fresh _ _ _ _ L w K)|]. cbn. congruence.
    + (* new *)
      assert (RN : s_regs s (s_next s) = None). { destruct (s_regs s (s_next s)) as [q|] eqn:E; [|reflexivity]. destruct (l_reg _ _ _ _ L _ q E) as [_ K]. lia. }
      eexists. eexists. split; [reflexivity|]. cbn [s_names s_regs]. split; [|split; [intros w N; apply sets_other; exact N|split; [apply sets_same|split; [intros i NI; apply setn_other; exact NI|eexists; split; [apply setn_same|]; rewrite RN; split; [reflexivity|reflexivity]]]]].
      assert (NU : forall i q, s_regs s i = Some q -> r_uuid q <> u). { intros i q K E. destruct (l_reg _ _ _ _ L i q K) as [K1 _]. congruence. }
      constructor; cbn [s_regs s_names s_sleep s_ids s_next p_next p_live].
      * intros i q K. unfold setn in K. destruct (Nat.eqb_spec i (s_next s)) as [->|N]; [inversion K; subst q; cbn; rewrite sets_same; split; [reflexivity|lia]|].
        destruct (l_reg _ _ _ _ L i q K). rewrite sets_other by (apply (NU i); exact K). split; [assumption|lia].
      * intros w i K. unfold sets in K. destruct (String.eqb_spec w u) as [->|N].
        -- inversion K; subst i. rewrite setn_same. eexists. split; reflexivity.
        -- destruct (l_name _ _ _ _ L w i K) as (q & K1 & K2). exists q. rewrite setn_other; [auto|]. intros ->. congruence.
      * intros w K. destruct (string_dec w u) as [->|N]; [rewrite !sets_same; reflexivity|]. rewrite !sets_other by exact N. apply (l_open _ _ _ _ L), OO; auto.
      * intros w K. destruct (l_sleep _ _ _ _ L w K) as (K1 & K2 & K3). assert (N : w <> u) by (intros ->; contradiction). rewrite phase_other by (cbn; congruence). rewrite sets_other by exact N. auto.
      * exact (l_awake _ _ _ _ L).
      * exact (l_nodup _ _ _ _ L).
      * exact (l_len _ _ _ _ L).
      * intros i q K. unfold setn in K. destruct (Nat.eqb_spec i (s_next s)) as [->|NI].
        -- inversion K; subst q. cbn [set_papi new_region r_papi r_uuid r_set]. left. split; [exact OS|]. rewrite (start_eq _ _ _ false) by apply setn_same. destruct (busy e); reflexivity.
        -- pose proof (l_papi _ _ _ _ L i q K) as P'. pose proof (NU i q K) as NUq. destruct (r_papi q) as [k|] eqn:EK; [|rewrite (OO _ NUq); exact P'].
           assert (NK : k <> p_next s). { intros ->. destruct P' as [[_ P']|[_ P']]; congruence. }
           rewrite (start_other _ _ _ _ NK), setn_other, (OO _ NUq) by exact NK. exact P'.
      * assert (NH : forall i q, s_regs s i = Some q -> r_papi q <> Some (p_next s)). { intros i q K E. pose proof (l_papi _ _ _ _ L i q K) as P'. rewrite E in P'. destruct P' as [[_ P']|[_ P']]; congruence. }
        intros i i' q q' h K K' E E'. unfold setn in K, K'. destruct (Nat.eqb_spec i (s_next s)) as [->|NI], (Nat.eqb_spec i' (s_next s)) as [->|NI']; auto.
        -- inversion K; subst q. cbn in E. exfalso. apply (NH i' q' K'). congruence.
        -- inversion K'; subst q'. cbn in E'. exfalso. apply (NH i q K). congruence.
        -- exact (l_inj _ _ _ _ L i i' q q' h K K' E E').
      * intros k b K. destruct (Nat.eq_dec k (p_next s)) as [->|NK]; [split; [lia|]; eexists; eexists; split; [apply setn_same|reflexivity]|].
        rewrite start_other, setn_other in K by exact NK. destruct (l_live _ _ _ _ L k b K) as (K1 & i & q & K2 & K3). split; [lia|]. exists i, q. rewrite setn_other; [auto|]. intros ->. congruence.
      * intros w K. destruct (string_dec w u) as [E|N]; [rewrite E, sets_same in K; discriminate|]. rewrite sets_other in K by exact N. rewrite of_other; [exact (l_fresh _ _ _ _ L w K)|]. cbn. congruence.
Qed.


(** finalize: the event set is stopped and kept; the oldest kept one is destroyed beyond [cache_size] *)
Lemma life_evict H s ids : life (S cache_size) H s ids -> exists s', evict s = Ret 0 s' /\ life cache_size H s' ids /\ s_names s' = s_names s /\
  (forall i, s_regs s' i = s_regs s i \/ exists r, s_regs s i = Some r /\ s_regs s' i = Some (set_papi r None)).
Proof.
  intros L. unfold evict. destruct (Nat.ltb_spec cache_size (List.length (s_sleep s))) as [LT|GE].
  2:{ exists s. split; [reflexivity|]. split; [|auto]. destruct L; constructor; assumption. }
  pose proof (l_sleep _ _ _ _ L) as SL. pose proof (l_nodup _ _ _ _ L) as ND. pose proof (l_len _ _ _ _ L) as LN. destruct (s_sleep s) as [|w l] eqn:ES; [cbn in LT; lia|].
  destruct (SL w (or_introl eq_refl)) as (PC & NN & EQ). destruct (s_names s w) as [id|] eqn:EN; [|congruence]. rewrite EQ.
  destruct (l_name _ _ _ _ L w id EN) as (r & R & UR). rewrite R. pose proof (l_papi _ _ _ _ L id r R) as P. rewrite UR, ES in P. destruct (r_papi r) as [h|] eqn:EH; [|destruct P as [_ P]; exfalso; apply P; left; reflexivity].
  assert (LV : p_live s h = Some false) by (destruct P as [[P _]|[_ P]]; [exfalso; apply (closed_not_open H w PC); exact P|exact P]).
  unfold papi_destroy. rewrite LV. apply NoDup_cons_iff in ND as [NW ND].
  eexists. split; [reflexivity|]. cbn [s_names s_regs]. split; [|split; [reflexivity|]].
  2:{ intros i. unfold setn. destruct (Nat.eqb_spec i id) as [->|NI]; [right; eauto|left; reflexivity]. }
  assert (RG : forall i q, setn (s_regs s) id (Some (set_papi r None)) i = Some q -> exists q0, s_regs s i = Some q0 /\ r_uuid q = r_uuid q0 /\ r_set q = r_set q0 /\ (i = id /\ r_papi q = None \/ i <> id /\ r_papi q = r_papi q0)).
  { intros i q K. unfold setn in K. destruct (Nat.eqb_spec i id) as [->|NI]; [inversion K; subst q; exists r; cbn; auto 10|exists q; auto 10]. }
  constructor; cbn [s_next s_regs s_names s_sleep s_ids p_next p_live].
  - intros i q K. destruct (RG i q K) as (q0 & K0 & -> & _). exact (l_reg _ _ _ _ L i q0 K0).
  - intros u i K. destruct (l_name _ _ _ _ L u i K) as (q & K1 & K2). unfold setn. destruct (Nat.eqb_spec i id) as [->|NI]; [|eauto]. eexists. split; [reflexivity|]. cbn. congruence.
  - exact (l_open _ _ _ _ L).
  - intros u K. assert (u <> w) by (intros ->; contradiction). rewrite sets_other by assumption. apply SL. right. exact K.
  - intros u K. destruct (string_dec u w) as [->|NU]; [apply sets_same|]. rewrite sets_other by exact NU. apply (l_awake _ _ _ _ L). rewrite ES. intros [Q|Q]; [congruence|contradiction].
  - exact ND.
  - cbn in LN. lia.
  - intros i q K. destruct (RG i q K) as (q0 & K0 & -> & -> & [[-> E]|[NI E]]); rewrite E.
    + assert (q0 = r) by congruence. subst q0. rewrite UR. split; [apply closed_not_open; exact PC|exact NW].
    + assert (NU : r_uuid q0 <> w). { intros E'. destruct (l_reg _ _ _ _ L i q0 K0) as [K1 _]. congruence. }
      pose proof (l_papi _ _ _ _ L i q0 K0) as P'. rewrite ES in P'. destruct (r_papi q0) as [k|] eqn:EK.
      * assert (NK : k <> h). { intros ->. apply NI. exact (l_inj _ _ _ _ L i id q0 r h K0 R EK EH). }
        rewrite setn_other by exact NK. destruct P' as [P'|[[P'|P'] P'']]; [left; exact P'|congruence|right; auto].
      * split; [apply P'|]. intros Q. apply (proj2 P'). right. exact Q.
  - intros i i' q q' k K K' E E'. destruct (RG i q K) as (q0 & K0 & _ & _ & [[_ E1]|[_ E1]]); [congruence|]. destruct (RG i' q' K') as (q0' & K0' & _ & _ & [[_ E1']|[_ E1']]); [congruence|].
    rewrite E1 in E. rewrite E1' in E'. exact (l_inj _ _ _ _ L i i' q0 q0' k K0 K0' E E').
  - intros k b K. unfold setn in K. destruct (Nat.eqb_spec k h) as [->|NK]; [discriminate|]. destruct (l_live _ _ _ _ L k b K) as (K1 & i & q & K2 & K3). split; [exact K1|].
    exists i, q. rewrite setn_other; [auto|]. intros ->. congruence.
  - exact (l_fresh _ _ _ _ L).
Qed.
Lemma life_finalize H s ids v u : life cache_size H s ids -> protocol (H ++ [(v, HFin u)]) ->
  exists r s', s_regs s (ids u) = Some r /\ r_uuid r = u /\ finalize c s (ids u) r = Ret 0 s' /\ life cache_size (H ++ [(v, HFin u)]) s' ids /\ s_names s' = s_names s /\
  (forall i, s_regs s' i = s_regs s i \/ exists r, s_regs s i = Some r /\ s_regs s' i = Some (set_papi r None)).
Proof.
  intros L PR. assert (PO : phase_of H u = Some Opened).
  { apply protocol_prefix in PR as [_ PR]. cbn [snd uuid] in PR. unfold follow in PR. destruct (phase_of H u) as [[| |]|]; cbn in PR; congruence. }
  set (ev := (v, HFin u)) in *.
  assert (PC : phase_of (H ++ [ev]) u = Some Closed) by (rewrite phase_same by reflexivity; rewrite PO; reflexivity).
  assert (OO : forall w, w <> u -> (open_in (H ++ [ev]) w <-> open_in H w)) by (intros w N; unfold open_in; rewrite phase_other by (cbn; congruence); tauto).
  assert (OP : open_in H u) by (left; exact PO). pose proof (l_open _ _ _ _ L u OP) as EN. destruct (l_name _ _ _ _ L u _ EN) as (r & R & UR).
  assert (NS : ~ In u (s_sleep s)). { intros K. destruct (l_sleep _ _ _ _ L u K) as (K1 & _). congruence. }
  pose proof (l_papi _ _ _ _ L _ r R) as P. rewrite UR in P. destruct (r_papi r) as [h|] eqn:EH; [|exfalso; apply (proj1 P); exact OP].
  assert (LV : p_live s h = Some (busy (r_set r))) by (destruct P as [[_ P]|[P _]]; [exact P|contradiction]).
  set (s1 := Stt (s_next s) (s_regs s) (s_names s) (s_sleep s ++ [u]) (sets (s_ids s) u (Some (ids u))) (p_next s) (papi_stop c (r_set r) (Some h) (p_live s))).
  assert (ST : papi_stop c (r_set r) (Some h) (p_live s) h = Some false) by (apply (stop_eq _ _ _ _ LV); auto).
  assert (L1 : life (S cache_size) (H ++ [ev]) s1 ids).
  { subst s1. constructor; cbn [s_next s_regs s_names s_sleep s_ids p_next p_live].
    - exact (l_reg _ _ _ _ L).
    - exact (l_name _ _ _ _ L).
    - intros w K. destruct (string_dec w u) as [->|N]; [exact EN|]. apply (l_open _ _ _ _ L), OO; auto.
    - intros w K. apply in_app_or in K as [K|[<-|[]]].
      + assert (N : w <> u) by (intros ->; contradiction). rewrite phase_other by (cbn; congruence). rewrite sets_other by exact N. exact (l_sleep _ _ _ _ L w K).
      + rewrite sets_same, EN. repeat split; [exact PC|discriminate].
    - intros w K. assert (N : w <> u) by (intros ->; apply K, in_or_app; right; left; reflexivity). rewrite sets_other by exact N. apply (l_awake _ _ _ _ L). intros Q. apply K, in_or_app; auto.
    - apply nodup_snoc; [exact (l_nodup _ _ _ _ L)|exact NS].
    - rewrite app_length. cbn. pose proof (l_len _ _ _ _ L). lia.
    - intros i q K. destruct (Nat.eq_dec i (ids u)) as [->|NI].
      + rewrite R in K. inversion K; subst q. rewrite EH, UR. right. split; [apply in_or_app; right; left; reflexivity|exact ST].
      + assert (NU : r_uuid q <> u). { intros E. destruct (l_reg _ _ _ _ L i q K) as [K1 _]. congruence. }
        pose proof (l_papi _ _ _ _ L i q K) as P'. destruct (r_papi q) as [k|] eqn:EK.
        * assert (NK : k <> h). { intros ->. apply NI. exact (l_inj _ _ _ _ L i _ q r h K R EK EH). }
          rewrite (stop_other _ _ _ _ NK), (OO _ NU). destruct P' as [P'|[P' P'']]; [left; exact P'|right; split; [apply in_or_app; auto|exact P'']].
        * rewrite (OO _ NU). split; [apply P'|]. intros Q. apply in_app_or in Q as [Q|[Q|[]]]; [apply (proj2 P'); exact Q|congruence].
    - exact (l_inj _ _ _ _ L).
    - intros k b K. destruct (Nat.eq_dec k h) as [->|NK]; [destruct (l_live _ _ _ _ L h _ LV) as [K1 _]; split; [exact K1|eauto]|]. rewrite stop_other in K by exact NK. exact (l_live _ _ _ _ L k b K).
    - intros w K. rewrite of_other; [exact (l_fresh _ _ _ _ L w K)|]. cbn. congruence. }
  destruct (life_evict _ _ _ L1) as (s' & E & L' & N' & R'). exists r, s'. split; [exact R|]. split; [exact UR|]. split; [unfold finalize; rewrite UR, (l_awake _ _ _ _ L u NS), EH; exact E|]. split; [exact L'|]. split; [exact N'|exact R'].
Qed.
End Life.

(** * The measurements *)
Section Data.
Variable c : cfg.
Fixpoint assoc (l : list (string * stat)) (n : string) : option stat := match l with [] => None | (m, q) :: l => if String.eqb m n then Some q else assoc l n end.
Definition counter (n i : nat) (ps : list (env * env)) : list Q := map (fun p => inject_Z (rd (snd p) i - rd (fst p) i)) ps.
Definition times (ps : list (env * env)) : list Q := map (fun p => inject_Z (duration p)) ps.
Record data (H : list (env * hev)) (u : string) (r : region) : Prop := {
  d_set : set_of H u = Some (r_set r);
  d_last : forall a, pending H u = Some a -> nev c (r_set r) <> 0 -> r_last r = map (rd a) (seq 0 (nev c (r_set r)));
  d_static : forall m, assoc (r_static r) m = stat_of (metrics H u m);
  d_plain : c_agg c = false -> r_starts r = starts H u /\ r_durs r = map duration (spans H u) /\
    r_counts r = (if Nat.eqb (nev c (r_set r)) 0 then [] else map (deltas (nev c (r_set r))) (spans H u));
  d_agg : c_agg c = true -> r_rt r = stat_of (times (spans H u)) /\ (forall a, pending H u = Some a -> r_begin r = now a) /\ r_first r = first_start (starts H u) /\
    r_cnt r = (if Nat.eqb (nev c (r_set r)) 0 then [] else match spans H u with [] => [] | ps => map (fun i => count_of (counter (nev c (r_set r)) i ps)) (seq 0 (nev c (r_set r))) end) }.
Lemma data_other H e u r : uuid (snd e) <> u -> data H u r -> data (H ++ [e]) u r.
Proof.
  intros N D. assert (E : of_region u (H ++ [e]) = of_region u H) by (apply of_other; exact N).
  assert (E1 : spans_of (H ++ [e]) u = spans_of H u) by (unfold spans_of; rewrite E; reflexivity).
  assert (E2 : set_of (H ++ [e]) u = set_of H u) by (unfold set_of; rewrite E; reflexivity).
  assert (E3 : forall m, metrics (H ++ [e]) u m = metrics H u m) by (intros m; unfold metrics; rewrite E; reflexivity).
  destruct D as [D1 D2 D3 D4 D5]. constructor; unfold spans, pending, starts in *; unfold spans, pending in *; rewrite ?E1, ?E2; try assumption.
  intros m. rewrite E3. apply D3.
Qed.
Lemma data_papi H u r h : data H u r -> data H u (set_papi r h).
Proof. intros D. destruct D as [D1 D2 D3 D4 D5]. constructor; cbn [set_papi r_set r_last r_static r_starts r_durs r_counts r_rt r_begin r_first r_cnt]; assumption. Qed.
(** the phase and the pending entry *)
Lemma pending_inside H u p : phase_of H u = Some p -> (pending H u = None <-> p <> Inside).
Proof.
  unfold phase_of, pending, spans_of. generalize (of_region u H). intros l. revert p. induction l as [|e l IH] using rev_ind; intros p; [cbn; intros E; inversion E; subst; split; [discriminate|reflexivity]|].
  rewrite !fold_left_app. cbn [fold_left]. destruct (fold_left follow l (Some Closed)) as [q|]; [|discriminate]. specialize (IH q eq_refl).
  destruct (fold_left span_step l ([], None)) as [d o]. cbn [snd] in IH. unfold follow. intros E.
  destruct e as [v [w k|w|w|w m x|w]]; destruct q; cbn in E; inversion E; subst p; cbn [span_step fst snd]; try (destruct IH as [IH1 IH2]).
  all: try (split; [intros K; discriminate K|intros K; exfalso; apply K; reflexivity]).
  all: try (split; [intros _; discriminate|intros _; apply IH2; discriminate]).
  - destruct o as [a|]; cbn; [split; [discriminate|reflexivity]|]. exfalso. apply (IH1 eq_refl). reflexivity.
  - split; [intros K; apply IH1 in K; exact K|intros K; exfalso; apply K; reflexivity].
Qed.
Lemma first_snoc l t : first_start (l ++ [t]) = if Z.eqb (first_start l) 0 then t else first_start l.
Proof.
  unfold first_start. rewrite filter_app. cbn [filter]. destruct (filter (fun t0 => negb (Z.eqb t0 0)) l) as [|x r] eqn:E; cbn [app].
  - cbn. destruct (Z.eqb_spec t 0) as [->|N]; reflexivity.
  - assert (In x (filter (fun t0 => negb (Z.eqb t0 0)) l)) as K by (rewrite E; left; reflexivity). apply filter_In in K as [_ K]. destruct (Z.eqb x 0); [discriminate|reflexivity].
Qed.
Lemma assoc_metric l n x m : assoc (metric_in l n x) m = if String.eqb n m then Some (match assoc l n with None => first_stat x | Some q => welford q x end) else assoc l m.
Proof.
  induction l as [|[k q] l IH]; cbn [metric_in assoc].
  - destruct (String.eqb n m); reflexivity.
  - destruct (String.eqb_spec k n) as [->|N]; cbn [assoc].
    + destruct (String.eqb n m); reflexivity.
    + rewrite IH. destruct (String.eqb_spec k m) as [->|N']; [|reflexivity]. destruct (String.eqb_spec n m) as [->|]; [congruence|reflexivity].
Qed.
Lemma minus_map (f g : nat -> Z) l : minus (map f l) (map g l) = Some (map (fun i => (f i - g i)%Z) l).
Proof. induction l as [|x l IH]; cbn; [reflexivity|]. rewrite IH. reflexivity. Qed.
Lemma welfords_map (f : nat -> stat) (g : nat -> Z) l : welfords (map f l) (map g l) = map (fun i => welford (f i) (inject_Z (g i))) l.
Proof. induction l as [|x l IH]; cbn; [reflexivity|]. rewrite IH. reflexivity. Qed.
Lemma repeat_map {A} (x : A) (l : list nat) : repeat x (List.length l) = map (fun _ => x) l.
Proof. induction l as [|y l IH]; cbn; [reflexivity|]. rewrite IH. reflexivity. Qed.

Lemma data_init H u v e r : data H u r -> data (H ++ [(v, HInit u e)]) u r.
Proof.
  intros [D1 D2 D3 D4 D5]. assert (E1 : spans_of (H ++ [(v, HInit u e)]) u = spans_of H u) by (rewrite spans_same by reflexivity; unfold span_step; cbn [snd]; destruct (spans_of H u); reflexivity).
  constructor; unfold starts, spans, pending in *; rewrite ?E1; try assumption.
  - rewrite set_same by reflexivity. rewrite D1. reflexivity.
  - intros m. rewrite metrics_same by reflexivity. cbn [snd]. rewrite app_nil_r. apply D3.
Qed.
Lemma data_fin H u v r : data H u r -> data (H ++ [(v, HFin u)]) u r.
Proof.
  intros [D1 D2 D3 D4 D5]. assert (E1 : spans_of (H ++ [(v, HFin u)]) u = spans_of H u) by (rewrite spans_same by reflexivity; unfold span_step; cbn [snd]; destruct (spans_of H u); reflexivity).
  constructor; unfold starts, spans, pending in *; rewrite ?E1; try assumption.
  - rewrite set_same by reflexivity. rewrite D1. reflexivity.
  - intros m. rewrite metrics_same by reflexivity. cbn [snd]. rewrite app_nil_r. apply D3.
Qed.
Lemma data_metric H u v n x r : data H u r -> data (H ++ [(v, HMetric u n x)]) u (metric n x r).
Proof.
  intros [D1 D2 D3 D4 D5]. assert (E1 : spans_of (H ++ [(v, HMetric u n x)]) u = spans_of H u) by (rewrite spans_same by reflexivity; unfold span_step; cbn [snd]; destruct (spans_of H u); reflexivity).
  constructor; unfold starts, spans, pending in *; rewrite ?E1; cbn [metric r_set r_last r_static r_starts r_durs r_counts r_rt r_begin r_first r_cnt]; try assumption.
  - rewrite set_same by reflexivity. rewrite D1. reflexivity.
  - intros m. rewrite metrics_same by reflexivity. cbn [snd]. rewrite assoc_metric. destruct (String.eqb_spec n m) as [->|N]; [|rewrite app_nil_r; apply D3].
    rewrite stat_snoc, D3. reflexivity.
Qed.
Lemma data_new v u e h : data [(v, HInit u e)] u (set_papi (new_region u e) h).
Proof.
  constructor; unfold starts, spans, pending, spans_of, set_of, metrics, of_region; cbn; rewrite String.eqb_refl; cbn.
  - reflexivity.
  - discriminate.
  - reflexivity.
  - intros _. repeat split. destruct (Nat.eqb (nev c e) 0); reflexivity.
  - intros _. repeat split; [discriminate|]. destruct (Nat.eqb (nev c e) 0); reflexivity.
Qed.
Lemma data_fresh H v u e h : of_region u H = [] -> data (H ++ [(v, HInit u e)]) u (set_papi (new_region u e) h).
Proof.
  intros E. assert (E1 : of_region u (H ++ [(v, HInit u e)]) = of_region u [(v, HInit u e)]).
  { rewrite of_same by reflexivity. rewrite E. unfold of_region. cbn. rewrite String.eqb_refl. reflexivity. }
  destruct (data_new v u e h) as [D1 D2 D3 D4 D5]. constructor; unfold starts, spans, pending, spans_of, set_of, metrics in *; rewrite E1; assumption.
Qed.
(** what PAPI_read gives for an open region *)
Lemma read_open e h p v : p h = Some (busy c e) -> nev c e <> 0 -> papi_read c e (Some h) p v = map v (seq 0 (nev c e)).
Proof. intros E N. unfold papi_read. rewrite E. unfold busy. destruct (Nat.eqb_spec (nev c e) 0); [contradiction|reflexivity]. Qed.
Lemma data_enter H u v s r h : phase_of H u = Some Opened -> data H u r -> r_papi r = Some h -> p_live s h = Some (busy c (r_set r)) ->
  data (H ++ [(v, HEnter u)]) u (enter c v s r).
Proof.
  intros PH [D1 D2 D3 D4 D5] EH LV. assert (PN : pending H u = None) by (apply (pending_inside H u _ PH); discriminate).
  assert (E1 : spans_of (H ++ [(v, HEnter u)]) u = (spans H u, Some v)).
  { rewrite spans_same by reflexivity. unfold span_step, spans. cbn [snd fst]. destruct (spans_of H u); reflexivity. }
  assert (ES : starts (H ++ [(v, HEnter u)]) u = starts H u ++ [now v]). { unfold starts. rewrite PN. unfold spans at 1, pending. rewrite E1. cbn [fst snd]. rewrite app_nil_r. reflexivity. }
  assert (SP : spans (H ++ [(v, HEnter u)]) u = spans H u) by (unfold spans at 1; rewrite E1; reflexivity).
  assert (PP : pending (H ++ [(v, HEnter u)]) u = Some v) by (unfold pending; rewrite E1; reflexivity).
  assert (SE : r_set (enter c v s r) = r_set r) by (unfold enter; destruct (c_agg c); reflexivity).
  constructor; rewrite ?SE, ?ES, ?SP.
  - rewrite set_same by reflexivity. rewrite D1. reflexivity.
  - intros a EA N. rewrite PP in EA. inversion EA; subst a. unfold enter. destruct (Nat.eqb_spec (nev c (r_set r)) 0); [contradiction|]. rewrite EH, (read_open _ _ _ _ LV N). destruct (c_agg c); reflexivity.
  - intros m. rewrite metrics_same by reflexivity. cbn [snd]. rewrite app_nil_r. rewrite <- D3. unfold enter. destruct (c_agg c); reflexivity.
  - intros A. destruct (D4 A) as (Q1 & Q2 & Q3). unfold enter. rewrite A. cbn [r_starts r_durs r_counts r_set]. rewrite Q1. auto.
  - intros A. destruct (D5 A) as (Q1 & Q2 & Q3 & Q4). unfold enter. rewrite A. cbn [r_rt r_begin r_first r_cnt r_set]. rewrite first_snoc, Q3. rewrite PP. repeat split; auto. intros a EA. congruence.
Qed.
Lemma data_exit H u v s r h : phase_of H u = Some Inside -> data H u r -> r_papi r = Some h -> p_live s h = Some (busy c (r_set r)) ->
  exists r1 r2, exit_time c v r = Some r1 /\ exit_counts c v s r1 = Some r2 /\ data (H ++ [(v, HExit u)]) u r2 /\ r_uuid r2 = r_uuid r /\ r_set r2 = r_set r /\ r_papi r2 = r_papi r.
Proof.
  intros PH [D1 D2 D3 D4 D5] EH LV. destruct (pending H u) as [a|] eqn:PA; [|exfalso; apply (proj1 (pending_inside H u _ PH) PA); reflexivity].
  assert (E1 : spans_of (H ++ [(v, HExit u)]) u = (spans H u ++ [(a, v)], None)).
  { rewrite spans_same by reflexivity. unfold span_step, spans. unfold pending in PA. cbn [snd fst]. destruct (spans_of H u) as [d o]. cbn [snd] in PA. rewrite PA. reflexivity. }
  assert (ES : starts (H ++ [(v, HExit u)]) u = starts H u). { unfold starts. rewrite PA. unfold spans at 1, pending. rewrite E1. cbn [fst snd]. rewrite map_app. cbn. rewrite app_nil_r. reflexivity. }
  assert (SP : spans (H ++ [(v, HExit u)]) u = spans H u ++ [(a, v)]) by (unfold spans at 1; rewrite E1; reflexivity).
  assert (PP : pending (H ++ [(v, HExit u)]) u = None) by (unfold pending; rewrite E1; reflexivity).
  assert (SD : set_of (H ++ [(v, HExit u)]) u = Some (r_set r)) by (rewrite set_same by reflexivity; rewrite D1; reflexivity).
  assert (ME : forall m, metrics (H ++ [(v, HExit u)]) u m = metrics H u m) by (intros m; rewrite metrics_same by reflexivity; apply app_nil_r).
  assert (LA : starts H u = map (fun p => now (fst p)) (spans H u) ++ [now a]) by (unfold starts; rewrite PA; reflexivity).
  set (n := nev c (r_set r)) in *.
  assert (MI : n <> 0 -> minus (papi_read c (r_set r) (r_papi r) (p_live s) (rd v)) (r_last r) = Some (deltas n (a, v))).
  { intros N. rewrite EH, (read_open _ _ _ _ LV N), (D2 a eq_refl N). rewrite minus_map. reflexivity. }
  unfold exit_time. destruct (c_agg c) eqn:A.
  - destruct (D5 eq_refl) as (Q1 & Q2 & Q3 & Q4). specialize (Q2 a eq_refl). eexists.
    assert (RT : stat_of (times (spans H u ++ [(a, v)])) = Some (match r_rt r with None => first_stat (inject_Z (now v - r_begin r)) | Some q => welford q (inject_Z (now v - r_begin r)) end)).
    { unfold times. rewrite map_app. cbn [map]. rewrite stat_snoc, Q1, Q2. reflexivity. }
    assert (CN : n <> 0 -> welfords match r_cnt r with [] => repeat empty_stat (List.length (deltas n (a, v))) | l => l end (deltas n (a, v)) = map (fun i => count_of (counter n i (spans H u ++ [(a, v)]))) (seq 0 n)).
    { intros N. assert (K : match r_cnt r with [] => repeat empty_stat (List.length (deltas n (a, v))) | l => l end = map (fun i => count_of (counter n i (spans H u))) (seq 0 n)).
      { rewrite Q4. destruct (Nat.eqb_spec n 0) as [|_]; [contradiction|]. destruct (spans H u) as [|p ps].
        - unfold deltas. rewrite map_length, repeat_map. reflexivity.
        - destruct n as [|n']; [contradiction|]. reflexivity. }
      rewrite K. unfold deltas. rewrite welfords_map. apply map_ext. intros i. unfold counter. rewrite map_app. cbn [map]. rewrite count_snoc. reflexivity. }
    destruct (Nat.eqb_spec n 0) as [N|N].
    + eexists. split; [reflexivity|]. unfold exit_counts. cbn [r_set r_papi r_last r_cnt r_rt r_uuid r_starts r_durs r_counts r_first r_begin r_static]. fold n. rewrite A. destruct (Nat.eqb_spec n 0) as [_|]; [|contradiction]. split; [reflexivity|]. cbn [r_uuid r_set r_papi]. repeat split.
      * cbn [r_set]. exact SD.
      * intros b K. rewrite PP in K. discriminate.
      * intros m. rewrite ME. apply D3.
      * rewrite A in *; discriminate.
      * rewrite A in *; discriminate.
      * rewrite A in *; discriminate.
      * cbn [r_rt]. rewrite SP, RT. reflexivity.
      * intros b K. rewrite PP in K. discriminate.
      * cbn [r_first]. rewrite ES. exact Q3.
      * cbn [r_cnt r_set]. fold n. rewrite Q4. destruct (Nat.eqb_spec n 0); [reflexivity|contradiction].
    + eexists. split; [reflexivity|]. unfold exit_counts. cbn [r_set r_papi r_last r_cnt r_rt r_uuid r_starts r_durs r_counts r_first r_begin r_static]. fold n. rewrite A. destruct (Nat.eqb_spec n 0) as [|_]; [contradiction|]. rewrite (MI N). split; [reflexivity|]. cbn [r_uuid r_set r_papi]. repeat split.
      * cbn [r_set]. exact SD.
      * intros b K. rewrite PP in K. discriminate.
      * intros m. rewrite ME. apply D3.
      * rewrite A in *; discriminate.
      * rewrite A in *; discriminate.
      * rewrite A in *; discriminate.
      * cbn [r_rt]. rewrite SP, RT. reflexivity.
      * intros b K. rewrite PP in K. discriminate.
      * cbn [r_first]. rewrite ES. exact Q3.
      * cbn [r_cnt r_set]. fold n. destruct (Nat.eqb_spec n 0) as [|_]; [contradiction|]. rewrite (CN N), SP. destruct (spans H u ++ [(a, v)]) eqn:EE; [destruct (spans H u); discriminate|reflexivity].
  - destruct (D4 eq_refl) as (Q1 & Q2 & Q3). rewrite LA in Q1. 
    assert (LS : last (r_starts r) 0%Z = now a) by (rewrite Q1; apply last_last).
    destruct (r_starts r) as [|t0 ts] eqn:ET; [destruct (map (fun p => now (fst p)) (spans H u)); discriminate|]. eexists.
    assert (RT : r_durs r ++ [(now v - last (t0 :: ts) 0)%Z] = map duration (spans H u ++ [(a, v)])). { rewrite map_app. rewrite Q2, LS. reflexivity. }
    destruct (Nat.eqb_spec n 0) as [N|N].
    + eexists. split; [reflexivity|]. unfold exit_counts. cbn [r_set r_papi r_last r_cnt r_rt r_uuid r_starts r_durs r_counts r_first r_begin r_static]. fold n. rewrite A. destruct (Nat.eqb_spec n 0) as [_|]; [|contradiction]. split; [reflexivity|]. cbn [r_uuid r_set r_papi]. repeat split.
      * cbn [r_set]. exact SD.
      * intros b K. rewrite PP in K. discriminate.
      * intros m. rewrite ME. apply D3.
      * cbn [r_starts]. rewrite ES, LA. exact Q1.
      * cbn [r_durs]. rewrite SP. exact RT.
      * cbn [r_counts r_set]. fold n. rewrite Q3. destruct (Nat.eqb_spec n 0); [reflexivity|contradiction].
      * rewrite A in *; discriminate.
      * rewrite A in *; discriminate.
      * rewrite A in *; discriminate.
      * rewrite A in *; discriminate.
    + eexists. split; [reflexivity|]. unfold exit_counts. cbn [r_set r_papi r_last r_cnt r_rt r_uuid r_starts r_durs r_counts r_first r_begin r_static]. fold n. rewrite A. destruct (Nat.eqb_spec n 0) as [|_]; [contradiction|]. rewrite (MI N). split; [reflexivity|]. cbn [r_uuid r_set r_papi]. repeat split.
      * cbn [r_set]. exact SD.
      * intros b K. rewrite PP in K. discriminate.
      * intros m. rewrite ME. apply D3.
      * cbn [r_starts]. rewrite ES, LA. exact Q1.
      * cbn [r_durs]. rewrite SP. exact RT.
      * cbn [r_counts r_set]. fold n. rewrite Q3, SP. destruct (Nat.eqb_spec n 0) as [|_]; [contradiction|]. rewrite map_app. reflexivity.
      * rewrite A in *; discriminate.
      * rewrite A in *; discriminate.
      * rewrite A in *; discriminate.
      * rewrite A in *; discriminate.
Qed.
End Data.

(** * Whole histories *)
Section All.
Variable c : cfg.
Definition inv (H : list (env * hev)) (s : state) (ids : string -> nat) : Prop :=
  life c cache_size H s ids /\ (forall u id, s_names s u = Some id -> ids u = id) /\ (forall id r, s_regs s id = Some r -> data c H (r_uuid r) r).
Lemma inv_put H s ids v e r' : inv H s ids -> protocol (H ++ [(v, e)]) -> (forall p, next p e = Some Closed -> False) -> open_in H (uuid e) ->
  (forall r, s_regs s (ids (uuid e)) = Some r -> r_uuid r = uuid e -> r_uuid r' = r_uuid r /\ r_set r' = r_set r /\ r_papi r' = r_papi r /\ data c (H ++ [(v, e)]) (r_uuid r) r') ->
  inv (H ++ [(v, e)]) (put s (ids (uuid e)) r') ids.
Proof.
  intros (L & NI & D) PR NC OP K. pose proof (l_open _ _ _ _ _ L _ OP) as EN. destruct (l_name _ _ _ _ _ L _ _ EN) as (r & R & UR). destruct (K r R UR) as (K1 & K2 & K3 & K4).
  split; [|split].
  - eapply life_put; [exact L|exact R|exact K1|exact K2|exact K3|symmetry; exact UR|exact NC|rewrite UR; exact OP|exact PR].
  - cbn [put s_names]. exact NI.
  - intros i q Q. cbn [put s_regs] in Q. unfold setn in Q. destruct (Nat.eqb_spec i (ids (uuid e))) as [->|N].
    + inversion Q; subst q. rewrite K1. exact K4.
    + apply data_other; [|exact (D i q Q)]. cbn [snd]. intros E. destruct (l_reg _ _ _ _ _ L i q Q) as [Q1 _]. rewrite <- E, EN in Q1. congruence.
Qed.
Lemma inv_step H s ids e : inv H s ids -> protocol (H ++ [e]) -> exists s' ids', hstep c (Up s ids) e = Up s' ids' /\ inv (H ++ [e]) s' ids' /\
  (forall u id, s_names s u = Some id -> s_names s' u = Some id).
Proof.
  intros I PR. pose proof I as (L & NI & D). pose proof (proj2 (protocol_prefix _ _ PR)) as PF. destruct e as [v e]. cbn [snd] in PF. unfold hstep. cbn [snd fst].
  destruct e as [u e|u|u|u n x|u]; cbn [call_of step uuid] in *.
  - destruct (life_register c H s ids v u e L PR) as (id & s' & E & L' & N1 & N2 & R1 & r' & R2 & R3). rewrite E. exists s', (sets ids u id). split; [reflexivity|].
    assert (NM : forall w k, s_names s w = Some k -> s_names s' w = Some k).
    { intros w k K. destruct (string_dec w u) as [->|N]; [|rewrite N1 by exact N; exact K]. rewrite N2. destruct (s_regs s id) as [r|] eqn:ER; destruct R3 as [R3 R4]; congruence. }
    split; [|exact NM]. split; [exact L'|]. split.
    + intros w k K. destruct (string_dec w u) as [->|N]; [rewrite sets_same; congruence|]. rewrite sets_other by exact N. apply NI. rewrite <- N1 by exact N. exact K.
    + intros i q Q. destruct (Nat.eq_dec i id) as [->|N].
      * assert (q = r') by congruence. subst q. destruct (s_regs s id) as [r|] eqn:ER; destruct R3 as [R3 R4].
        -- destruct (l_name _ _ _ _ _ L u id R4) as (r0 & R5 & UR). assert (r0 = r) by congruence. subst r0. rewrite R3. apply data_papi. cbn [set_papi r_uuid]. rewrite UR.
           apply data_init. rewrite <- UR. apply (D id). exact ER.
        -- rewrite R4. cbn [set_papi new_region r_uuid]. apply data_fresh. exact (l_fresh _ _ _ _ _ L u R3).
      * rewrite R1 in Q by exact N. apply data_other; [|exact (D i q Q)]. cbn [snd uuid]. intros E'. destruct (l_reg _ _ _ _ _ L i q Q) as [Q1 _]. apply NM in Q1. rewrite <- E', N2 in Q1. congruence.
  - assert (PO : phase_of H u = Some Opened) by (unfold follow in PF; destruct (phase_of H u) as [[| |]|]; cbn in PF; congruence).
    assert (OP : open_in H u) by (left; exact PO). destruct (l_name _ _ _ _ _ L _ _ (l_open _ _ _ _ _ L u OP)) as (r & R & UR). rewrite R.
    eexists. eexists. split; [reflexivity|]. split; [|auto]. apply (inv_put H s ids v (HEnter u)); auto; [intros [| |]; discriminate|]. cbn [uuid]. intros r0 R0 _. assert (r0 = r) by congruence. subst r0.
    pose proof (l_papi _ _ _ _ _ L _ r R) as P. rewrite UR in P. destruct (r_papi r) as [h|] eqn:EH; [|exfalso; apply (proj1 P); exact OP].
    assert (LV : p_live s h = Some (busy c (r_set r))). { destruct P as [[_ P]|[P _]]; [exact P|]. destruct (l_sleep _ _ _ _ _ L u P) as (K & _). congruence. }
    split; [unfold enter; destruct (c_agg c); reflexivity|]. split; [unfold enter; destruct (c_agg c); reflexivity|]. split; [unfold enter; destruct (c_agg c); exact EH|].
    rewrite UR. apply (data_enter c H u v s r h PO); auto. rewrite <- UR. apply (D (ids u)). exact R.
  - assert (PO : phase_of H u = Some Inside) by (unfold follow in PF; destruct (phase_of H u) as [[| |]|]; cbn in PF; congruence).
    assert (OP : open_in H u) by (right; exact PO). destruct (l_name _ _ _ _ _ L _ _ (l_open _ _ _ _ _ L u OP)) as (r & R & UR). rewrite R.
    pose proof (l_papi _ _ _ _ _ L _ r R) as P. rewrite UR in P. destruct (r_papi r) as [h|] eqn:EH; [|exfalso; apply (proj1 P); exact OP].
    assert (LV : p_live s h = Some (busy c (r_set r))). { destruct P as [[_ P]|[P _]]; [exact P|]. destruct (l_sleep _ _ _ _ _ L u P) as (K & _). congruence. }
    assert (DR : data c H u r) by (rewrite <- UR; apply (D (ids u)); exact R).
    destruct (data_exit c H u v s r h PO DR EH LV) as (r1 & r2 & E1 & E2 & D2 & U2 & S2 & P2). rewrite E1, E2.
    eexists. eexists. split; [reflexivity|]. split; [|auto]. apply (inv_put H s ids v (HExit u)); auto; [intros [| |]; discriminate|]. cbn [uuid]. intros r0 R0 _. assert (r0 = r) by congruence. subst r0.
    rewrite UR. auto. split; [congruence|]. auto.
  - assert (OP : open_in H u) by (unfold open_in, follow in *; destruct (phase_of H u) as [[| |]|]; cbn in PF; auto; congruence).
    destruct (l_name _ _ _ _ _ L _ _ (l_open _ _ _ _ _ L u OP)) as (r & R & UR). rewrite R.
    eexists. eexists. split; [reflexivity|]. split; [|auto]. apply (inv_put H s ids v (HMetric u n x)); auto; [intros [| |]; discriminate|]. cbn [uuid]. intros r0 R0 _. assert (r0 = r) by congruence. subst r0.
    split; [reflexivity|]. split; [reflexivity|]. split; [reflexivity|]. rewrite UR. apply data_metric. rewrite <- UR. apply (D (ids u)). exact R.
  - destruct (life_finalize c H s ids v u L PR) as (r & s' & R & UR & E & L' & N' & R'). rewrite R, E. exists s', ids. split; [reflexivity|]. split; [|intros w k K; rewrite N'; exact K].
    split; [exact L'|]. split; [rewrite N'; exact NI|].
    assert (DF : forall i q, s_regs s i = Some q -> data c (H ++ [(v, HFin u)]) (r_uuid q) q).
    { intros i q Q. destruct (string_dec (r_uuid q) u) as [EU|N]; [|apply data_other; [cbn; congruence|exact (D i q Q)]]. rewrite EU. apply data_fin. rewrite <- EU. exact (D i q Q). }
    intros i q Q. destruct (R' i) as [K|(q0 & K1 & K2)]; [rewrite K in Q; exact (DF i q Q)|]. rewrite K2 in Q. inversion Q; subst q. cbn [set_papi r_uuid]. apply data_papi. exact (DF i q0 K1).
Qed.
Theorem drive_inv H : protocol H -> exists s ids, drive c boot H = Up s ids /\ inv H s ids.
Proof.
  induction H as [|e H IH] using rev_ind; intros PR.
  - exists init, (fun _ => 0). split; [reflexivity|]. split; [apply life_init|]. split; [discriminate|discriminate].
  - destruct (IH (proj1 (protocol_prefix _ _ PR))) as (s & ids & E & I). destruct (inv_step H s ids e I PR) as (s' & ids' & E' & I' & _). exists s', ids'.
    split; [unfold drive in *; rewrite fold_left_app, E; exact E'|exact I'].
Qed.
(** an id never changes *)
Lemma drive_names H H' s ids s' ids' : protocol (H ++ H') -> drive c boot H = Up s ids -> drive c boot (H ++ H') = Up s' ids' ->
  forall u, of_region u H <> [] -> ids' u = ids u.
Proof.
  intros PR E E' u NE.
  assert (G : forall H', protocol (H ++ H') -> exists s' ids', drive c boot (H ++ H') = Up s' ids' /\ inv (H ++ H') s' ids' /\ forall w id, s_names s w = Some id -> s_names s' w = Some id).
  { clear - E. induction H' as [|e H' IH] using rev_ind; intros PR.
    - rewrite app_nil_r in *. destruct (drive_inv H PR) as (s1 & ids1 & E1 & I1). exists s1, ids1. rewrite E in E1. inversion E1; subst. auto.
    - rewrite app_assoc in *. destruct (IH (proj1 (protocol_prefix _ _ PR))) as (s1 & ids1 & E1 & I1 & N1). destruct (inv_step _ _ _ e I1 PR) as (s2 & ids2 & E2 & I2 & N2).
      exists s2, ids2. split; [unfold drive in *; rewrite fold_left_app, E1; exact E2|]. split; [exact I2|]. auto. }
  destruct (G H' PR) as (s2 & ids2 & E2 & (L2 & NI2 & _) & N2). rewrite E' in E2. inversion E2; subst s2 ids2.
  assert (PH : protocol H). { intros w K. apply (PR w). unfold phase_of, of_region in *. rewrite filter_app, fold_left_app, K. clear. induction (filter _ H') as [|e l IH]; cbn; auto. }
  destruct (drive_inv H PH) as (s1 & ids1 & E1 & (L1 & NI1 & _)). rewrite E in E1. inversion E1; subst s1 ids1.
  destruct (s_names s u) as [id|] eqn:EN; [|exfalso; apply NE; exact (l_fresh _ _ _ _ _ L1 u EN)]. rewrite (NI1 u id EN). apply NI2, N2, EN.
Qed.
(** shutdown *)
Lemma shutdown_ok H s ids : life c cache_size H s ids -> exists s', shutdown (s_sleep s) s = Ret 0 s' /\ (forall h b, p_live s' h = Some b -> exists id r, s_regs s id = Some r /\ r_papi r = Some h /\ open_in H (r_uuid r)).
Proof.
  intros L. 
  assert (G : forall l s1, NoDup l -> (forall w, In w l -> In w (s_sleep s)) -> s_names s1 = s_names s -> s_ids s1 = s_ids s ->
     (forall id r, s_regs s id = Some r -> ~ In (r_uuid r) (s_sleep s) \/ In (r_uuid r) l -> s_regs s1 id = Some r /\ (forall h, r_papi r = Some h -> p_live s1 h = p_live s h)) ->
     (forall h b, p_live s1 h = Some b -> exists id r, s_regs s id = Some r /\ r_papi r = Some h /\ (~ In (r_uuid r) (s_sleep s) \/ In (r_uuid r) l)) ->
     exists s', shutdown l s1 = Ret 0 s' /\ forall h b, p_live s' h = Some b -> exists id r, s_regs s id = Some r /\ r_papi r = Some h /\ ~ In (r_uuid r) (s_sleep s)).
  { induction l as [|w l IH]; intros s1 ND IN EN EI RG LV.
    - eexists. split; [reflexivity|]. cbn [p_live]. intros h b K. destruct (LV h b K) as (id & r & K1 & K2 & [K3|[]]). eauto.
    - apply NoDup_cons_iff in ND as [NW ND]. destruct (l_sleep _ _ _ _ _ L w (IN w (or_introl eq_refl))) as (PC & NN & EQ). cbn [shutdown]. rewrite EI, EQ.
      destruct (s_names s w) as [id|] eqn:ENW; [|congruence]. destruct (l_name _ _ _ _ _ L w id ENW) as (r & R & UR).
      destruct (RG id r R (or_intror (or_introl (eq_sym UR)))) as [R1 LV1]. rewrite R1. pose proof (l_papi _ _ _ _ _ L id r R) as P. rewrite UR in P.
      destruct (r_papi r) as [h|] eqn:EH; [|exfalso; apply (proj2 P), IN; left; reflexivity].
      assert (LH : p_live s h = Some false) by (destruct P as [[P _]|[_ P]]; [exfalso; apply (closed_not_open H w PC P)|exact P]). unfold papi_destroy. rewrite (LV1 h eq_refl), LH.
      apply IH; cbn [s_names s_ids s_regs p_live]; auto.
      + intros y Y. apply IN. right. exact Y.
      + intros i q Q K. assert (NI : i <> id). { intros ->. assert (q = r) by congruence. subst q. rewrite UR in K. destruct K as [K|K]; [apply K, IN; left; reflexivity|contradiction]. }
        destruct (RG i q Q) as [Q1 Q2]; [destruct K as [K|K]; [left; exact K|right; right; exact K]|]. rewrite setn_other by exact NI. split; [exact Q1|]. intros k EK.
        rewrite setn_other; [auto|]. intros ->. apply NI. exact (l_inj _ _ _ _ _ L i id q r h Q R EK EH).
      + intros k b K. unfold setn in K. destruct (Nat.eqb_spec k h) as [->|NK]; [discriminate|]. destruct (LV k b K) as (i & q & Q1 & Q2 & [Q3|[Q3|Q3]]).
        * exists i, q. auto.
        * exfalso. destruct (l_reg _ _ _ _ _ L i q Q1) as [Q4 _]. rewrite <- Q3, ENW in Q4. assert (i = id) by congruence. subst i. congruence.
        * exists i, q. auto. }
  destruct (G (s_sleep s) s) as (s' & E & K); auto.
  - exact (l_nodup _ _ _ _ _ L).
  - intros h b K. destruct (l_live _ _ _ _ _ L h b K) as (_ & id & r & K1 & K2). exists id, r. split; [exact K1|]. split; [exact K2|]. destruct (in_dec string_dec (r_uuid r) (s_sleep s)); auto.
  - exists s'. split; [exact E|]. intros h b Q. destruct (K h b Q) as (id & r & Q1 & Q2 & Q3). exists id, r. split; [exact Q1|]. split; [exact Q2|].
    pose proof (l_papi _ _ _ _ _ L id r Q1) as P. rewrite Q2 in P. destruct P as [[P _]|[P _]]; [exact P|contradiction].
Qed.
End All.

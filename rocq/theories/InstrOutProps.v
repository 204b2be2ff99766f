(** The trace file (C64).  Specification: [json], its token text [flat], and the document [trace_doc] a history of
    calls should give. *)
From Coq Require Import List String Ascii ZArith QArith Bool Arith Lia.
From Verif Require Import Capture StrFacts Instr InstrSpec InstrProofs InstrProps InstrOut.
Import ListNotations.
Local Open Scope string_scope.
Local Open Scope list_scope.
Local Open Scope nat_scope.

(** ** JSON *)
Inductive json := JS (s : string) | JN (q : Q) | JB (b : bool) | JA (l : list json) | JO (l : list (string * json)).
Fixpoint seps (l : list (list tok)) : list tok := match l with [] => [] | [x] => x | x :: l => x ++ Comma :: seps l end.
Fixpoint flat (j : json) : list tok :=
  match j with
  | JS s => [Str s] | JN q => [Num q] | JB b => [Boo b]
  | JA l => LS :: seps (map flat l) ++ [RS]
  | JO l => LB :: seps (map (fun p => Str (fst p) :: Colon :: flat (snd p)) l) ++ [RB] end.
Definition JI (z : Z) : json := JN (inject_Z z).

(** ** The document *)
Section Doc.
  Variables (c : cfg) (md : string -> meta) (pid tid : Z).
  Definition range (l k : Z) : json := JO [("line", JI l); ("col", JI k)].
  Definition txt (o : option string) : json := JS (match o with Some s => s | None => "" end).
  Definition docc_json (m : meta) : json :=
    JO ([("sdfg_name", txt (m_sdfg m)); ("sdfg_file", txt (m_sfile m)); ("arg_capture_path", txt (m_cap m)); ("features_file", txt (m_feat m)); ("opt_report_file", txt (m_rep m))] ++
        match m_sdfg m, m_sfile m with
        | Some _, Some _ => [("element_id", JI (m_eid m)); ("element_type", JS (m_etype m)); ("loopnest_index", JI (m_idx m));
            ("loop_info", JO [("loopnest_index", JI (m_idx m)); ("num_loops", JI (m_loops m)); ("num_maps", JI (m_maps m)); ("num_fors", JI (m_fors m)); ("num_whiles", JI (m_whiles m));
               ("max_depth", JI (m_depth m)); ("is_perfectly_nested", JB (m_pn m)); ("is_perfectly_parallel", JB (m_pp m)); ("is_elementwise", JB (m_el m)); ("has_side_effects", JB (m_se m))])]
        | _, _ => [] end).
  Definition event_json (cat : string) (m : meta) (ts : Z) (dur : option Q) (metrics : list (string * json)) : json :=
    JO ([("ph", JS "X"); ("cat", JS cat); ("name", JS (append (m_fun m) (append " [L" (append (to_string_z (m_lb m)) (append "-" (append (to_string_z (m_le m)) "]"))))));
         ("pid", JI pid); ("tid", JI tid); ("ts", JI (Z.quot ts 1000))] ++ match dur with Some d => [("dur", JN (d / 1000)%Q)] | None => [] end ++
        [("args", JO [("function", JS (m_fun m)); ("module", JS (filename "" (m_file m)));
           ("source_ranges", JA [JO [("file", JS (m_file m)); ("from", range (m_lb m) (m_cb m)); ("to", range (m_le m) (m_ce m))]]);
           ("docc", docc_json m); ("target_type", txt (m_target m)); ("metrics", JO metrics)])]).
  (** one event for each time a region was entered, in order; the last without duration and counters if the region
      has not been left *)
  Definition region_events (H : list (env * hev)) (u : string) (e : evset) : list json :=
    map (fun p => event_json "region,daisy" (md u) (now (fst p)) (Some (inject_Z (duration p)))
                    (map (fun q => (fst q, JI (snd q))) (combine (events c e) (deltas (List.length (events c e)) p)))) (spans H u) ++
    match pending H u with Some a => [event_json "region,daisy" (md u) (now a) None []] | None => [] end.
  Definition trace_doc (H : list (env * hev)) (us : list (string * evset)) : json :=
    JO [("traceEvents", JA (flat_map (fun p => region_events H (fst p) (snd p)) us))].
  (** aggregated *)
  Definition stat_json (q : stat) : json := JO [("mean", JN (q_mean q)); ("variance", JN (q_var q)); ("count", JI (q_n q)); ("min", JN (q_min q)); ("max", JN (q_max q))].
  Definition in_us (q : stat) : stat := Stat (q_n q) (q_mean q / 1000)%Q (q_var q / 1000)%Q (q_min q / 1000)%Q (q_max q / 1000)%Q.
  Definition aggregated_event (r : region) (rt : stat) : json :=
    event_json "aggregated_region,daisy" (md (r_uuid r)) (r_first r) (Some (q_mean rt * inject_Z (q_n rt))%Q)
      (combine (events c (r_set r)) (map stat_json (r_cnt r)) ++ map (fun p => (append "static:::" (fst p), stat_json (snd p))) (r_static r) ++ [("runtime", stat_json (in_us rt))]).
End Doc.

(** ** Lists with separators *)
Lemma seps_cons x l : l <> [] -> seps (x :: l) = x ++ Comma :: seps l.
Proof. destruct l; [congruence|reflexivity]. Qed.
Lemma loop_seps n f : loop n f = seps (map f (seq 0 n)).
Proof.
  unfold loop. assert (G : forall k a, flat_map (fun i => f i ++ if Nat.ltb i (a + k - 1) then [Comma] else []) (seq a k) = seps (map f (seq a k))).
  { induction k as [|k IH]; intros a; [reflexivity|]. cbn [seq flat_map map]. destruct k as [|k].
    - cbn [seq flat_map map seps]. destruct (Nat.ltb_spec a (a + 1 - 1)); [lia|]. rewrite !app_nil_r. reflexivity.
    - rewrite seps_cons by discriminate. destruct (Nat.ltb_spec a (a + S (S k) - 1)); [|lia]. rewrite <- app_assoc. cbn [app]. f_equal. f_equal.
      replace (a + S (S k)) with (S a + S k) by lia. apply IH. }
  exact (G n 0).
Qed.
Lemma loop_nth (l : list (list tok)) : loop (List.length l) (fun i => nth i l []) = seps l.
Proof.
  rewrite loop_seps. f_equal. induction l as [|x l IH] using rev_ind; [reflexivity|]. rewrite app_length. cbn [List.length]. rewrite Nat.add_1_r, seq_S, map_app. cbn [map].
  change (0 + List.length l) with (List.length l). rewrite nth_middle. f_equal. rewrite <- IH at 2. apply map_ext_in. intros i I. apply in_seq in I. apply app_nth1. lia.
Qed.
Lemma seps_app a b : a <> [] -> b <> [] -> seps (a ++ b) = seps a ++ Comma :: seps b.
Proof.
  intros NA NB. induction a as [|x a IH]; [congruence|]. destruct a as [|y a]; [cbn [app]; rewrite seps_cons by exact NB; reflexivity|].
  cbn [app]. rewrite seps_cons by discriminate. rewrite (seps_cons x (y :: a)) by discriminate. rewrite <- app_assoc. cbn [app]. f_equal. f_equal. apply IH. discriminate.
Qed.
Lemma seps_nest (l : list (list (list tok))) : Forall (fun x => x <> []) l -> seps (map seps l) = seps (List.concat l).
Proof.
  induction 1 as [|x l NX F IH]; [reflexivity|]. cbn [map List.concat]. destruct l as [|y l]; [cbn; rewrite app_nil_r; reflexivity|].
  rewrite seps_cons by discriminate. rewrite IH. rewrite seps_app; [reflexivity|exact NX|]. inversion F; subst. cbn [List.concat]. destruct y; [congruence|discriminate].
Qed.

(** ** One entry *)
Section Entry.
  Variables (c : cfg) (md : string -> meta) (pid tid : Z).
  Lemma event_flat m ts dur ms : forall e, flat (event_json pid tid e m ts dur ms) =
    head pid tid e m ++ [Str "ts"; Colon; int (Z.quot ts 1000); Comma] ++ match dur with Some d => [Str "dur"; Colon; Num (us d); Comma] | None => [] end ++
    [Str "args"; Colon; LB] ++ location m ++ docc m ++ (if named m then Comma :: element m else []) ++ [RB; Comma] ++ target m ++
    [Str "metrics"; Colon; LB] ++ seps (map (fun p => Str (fst p) :: Colon :: flat (snd p)) ms) ++ [RB; RB; RB].
  Proof.
    intros e. unfold event_json, head, location, docc, target, named, txt, docc_json, element. destruct (m_sdfg m) as [a|], (m_sfile m) as [b|], dur as [d|]; cbn [flat map seps app fst snd or_empty range JI int].
    all: repeat (rewrite <- app_assoc; cbn [app]); try reflexivity.
  Qed.
  Lemma counts_flat names cs : List.length names = List.length cs ->
    loop (List.length cs) (fun i => [Str (nth i names ""); Colon; int (nth i cs 0%Z)]) = seps (map (fun p => Str (fst p) :: Colon :: flat (snd p)) (map (fun q => (fst q, JI (snd q))) (combine names cs))).
  Proof.
    intros E. rewrite loop_seps, map_map. f_equal. cbn [fst snd flat JI]. revert cs E. induction names as [|x names IH]; intros [|y cs] E; try discriminate; [reflexivity|].
    cbn [List.length seq map combine fst snd nth]. f_equal. rewrite <- seq_shift, map_map. cbn [nth]. apply IH. cbn in E. congruence.
  Qed.
  Definition has_names (m : meta) : Prop := m_sdfg m <> None /\ m_sfile m <> None.
  Lemma entry_flat r i ts dur cs : has_names (md (r_uuid r)) -> nth_error (r_starts r) i = Some ts -> nth_error (r_durs r) i = dur ->
    match nth_error (r_counts r) i with Some cs' => cs = combine (events c (r_set r)) cs' /\ List.length (events c (r_set r)) = List.length cs' | None => cs = [] end ->
    append_event c md pid tid r i = flat (event_json pid tid "region,daisy" (md (r_uuid r)) ts (option_map inject_Z dur) (map (fun q => (fst q, JI (snd q))) cs)).
  Proof.
    intros [N1 N2] ES ED EC. rewrite event_flat. unfold append_event. rewrite ES, ED. assert (NM : named (md (r_uuid r)) = true) by (unfold named; destruct (m_sdfg _), (m_sfile _); congruence).
    rewrite NM. destruct (nth_error (r_counts r) i) as [cs'|]; [destruct EC as [-> EL]; rewrite (counts_flat _ _ EL)|rewrite EC]; destruct dur; cbn [option_map map seps]; repeat (rewrite <- app_assoc; cbn [app]); reflexivity.
  Qed.
End Entry.

(* ======================= C64 ======================= *)
Lemma all_some_map {A B} (f : A -> B) l : all_some (map (fun x => Some (f x)) l) = Some (map f l).
Proof. induction l as [|x l IH]; [reflexivity|]. cbn [map all_some]. rewrite IH. reflexivity. Qed.
(** [rs]: the regions of the runtime, in any order. *)
Definition all_regions (s : state) (rs : list region) : Prop := forall r, In r rs -> exists id, s_regs s id = Some r.
(** The trace file is the text of the document: an event for each entry of each region.  Every region has been
    entered, and comes with the name and file of its SDFG, as in generated code. *)
Theorem C64_trace_partial : forall c md pid tid junk H s ids rs, protocol H -> c_agg c = false -> drive c boot H = Up s ids -> all_regions s rs ->
  (forall r, In r rs -> starts H (r_uuid r) <> [] /\ has_names (md (r_uuid r))) ->
  trace_file c md pid tid junk rs = Some (flat (trace_doc c md pid tid H (map (fun r => (r_uuid r, r_set r)) rs))).
Proof.
  intros c md pid tid junk H s ids rs P A E AR OK. destruct (drive_inv c H P) as (s1 & ids1 & E1 & (L & NI & D)). rewrite E in E1. inversion E1; subst s1 ids1.
  assert (G : forall r, In r rs -> loop (List.length (r_starts r)) (append_event c md pid tid r) = seps (map flat (region_events c md pid tid H (r_uuid r) (r_set r))) /\ region_events c md pid tid H (r_uuid r) (r_set r) <> []).
  { intros r I. destruct (AR r I) as (id & R). destruct (OK r I) as [NS HN]. destruct (d_plain _ _ _ _ (D id r R) A) as (Q1 & Q2 & Q3). set (u := r_uuid r) in *.
    assert (NE : region_events c md pid tid H u (r_set r) <> []).
    { unfold region_events. unfold starts in NS. destruct (spans H u), (pending H u); cbn in *; first [discriminate | exfalso; apply NS; reflexivity]. }
    split; [|exact NE]. rewrite loop_seps. f_equal.
    assert (LN : List.length (r_starts r) = List.length (region_events c md pid tid H u (r_set r))).
    { rewrite Q1. unfold starts, region_events. rewrite !app_length, !map_length. destruct (pending H u); reflexivity. }
    rewrite LN. apply nth_ext with (d := append_event c md pid tid r 0) (d' := flat (JB true)); [rewrite !map_length, seq_length; reflexivity|]. rewrite map_length, seq_length. intros i LI.
    rewrite (map_nth flat). rewrite (map_nth (append_event c md pid tid r) (seq 0 _) 0 i), seq_nth by exact LI. cbn [Nat.add].
    unfold region_events in *. rewrite app_length, map_length in LI. destruct (Nat.ltb_spec i (List.length (spans H u))) as [LT|GE].
    - rewrite app_nth1 by (rewrite map_length; exact LT). destruct (nth_error (spans H u) i) as [p|] eqn:EP; [|apply nth_error_None in EP; lia].
      rewrite (nth_indep _ (JB true) (event_json pid tid "region,daisy" (md u) (now (fst p)) (Some (inject_Z (duration p))) (map (fun q => (fst q, JI (snd q))) (combine (events c (r_set r)) (deltas (List.length (events c (r_set r))) p))))) by (rewrite map_length; exact LT).
      rewrite (map_nth (fun p => event_json pid tid "region,daisy" (md u) (now (fst p)) (Some (inject_Z (duration p))) (map (fun q => (fst q, JI (snd q))) (combine (events c (r_set r)) (deltas (List.length (events c (r_set r))) p)))) (spans H u) p i).
      rewrite (nth_error_nth _ _ _ EP). change (Some (inject_Z (duration p))) with (option_map inject_Z (Some (duration p))). apply entry_flat.
      + exact HN.
      + rewrite Q1. unfold starts. rewrite nth_error_app1 by (rewrite map_length; exact LT). apply (map_nth_error (fun p => now (fst p))). exact EP.
      + rewrite Q2. apply map_nth_error. exact EP.
      + rewrite Q3. unfold nev. destruct (Nat.eqb_spec (List.length (events c (r_set r))) 0) as [Z|NZ].
        * destruct i; cbn; destruct (events c (r_set r)); try discriminate; reflexivity.
        * rewrite (map_nth_error _ _ _ EP). split; [reflexivity|]. unfold deltas. rewrite map_length, seq_length. reflexivity.
    - destruct (pending H u) as [a|] eqn:EA; [|cbn in LI; lia]. cbn [List.length] in LI. assert (i = List.length (spans H u)) by lia. subst i.
      rewrite app_nth2 by (rewrite map_length; lia). rewrite map_length, Nat.sub_diag. cbn [nth]. change (@None Q) with (option_map inject_Z (@None Z)). change (@nil (string * json)) with (map (fun q : string * Z => (fst q, JI (snd q))) []). apply entry_flat.
      + exact HN.
      + rewrite Q1. unfold starts. rewrite EA. rewrite nth_error_app2 by (rewrite map_length; lia). rewrite map_length, Nat.sub_diag. reflexivity.
      + rewrite Q2. apply nth_error_None. rewrite map_length. lia.
      + rewrite Q3. destruct (Nat.eqb (nev c (r_set r)) 0); [destruct (List.length (spans H u)); reflexivity|]. assert (K : nth_error (map (deltas (nev c (r_set r))) (spans H u)) (List.length (spans H u)) = None) by (apply nth_error_None; rewrite map_length; lia). rewrite K. reflexivity. }
  unfold trace_file. rewrite A. rewrite all_some_map. cbn [option_map]. f_equal. rewrite loop_nth. unfold trace_doc. cbn [flat map seps fst snd app]. f_equal. f_equal. f_equal.
  rewrite <- app_assoc. cbn [app]. f_equal. f_equal. clear - G.
  transitivity (seps (map seps (map (fun r => map flat (region_events c md pid tid H (r_uuid r) (r_set r))) rs))).
  - f_equal. rewrite map_map. apply map_ext_in. intros r I. apply G. exact I.
  - rewrite seps_nest.
    + f_equal. rewrite <- flat_map_concat_map. induction rs as [|r rs IH]; [reflexivity|]. cbn [flat_map map]. rewrite map_app. f_equal. apply IH. intros q Q. apply G. right. exact Q.
    + apply Forall_forall. intros x X. apply in_map_iff in X as (r & <- & I). destruct (G r I) as [_ N]. destruct (region_events c md pid tid H (r_uuid r) (r_set r)); [congruence|discriminate].
Qed.
(** In aggregate mode: one event for each region, with the statistics of C63.  A region with counters has been left
    at least once. *)
Theorem C64_aggregated_partial : forall c md pid tid junk H s ids rs, protocol H -> c_agg c = true -> drive c boot H = Up s ids -> all_regions s rs ->
  (forall r, In r rs -> events c (r_set r) = [] \/ spans H (r_uuid r) <> []) ->
  exists rt, trace_file c md pid tid junk rs = Some (flat (JO [("traceEvents", JA (map (fun r => aggregated_event c md pid tid r (rt r)) rs))])) /\
    forall r q, In r rs -> r_rt r = Some q -> rt r = q.
Proof.
  intros c md pid tid junk H s ids rs P A E AR OK. destruct (drive_inv c H P) as (s1 & ids1 & E1 & (L & NI & D)). rewrite E in E1. inversion E1; subst s1 ids1.
  exists (runtime junk). split; [|intros r q _ K; unfold runtime; rewrite K; reflexivity].
  assert (G : forall r, In r rs -> append_aggregated c md pid tid junk r = Some (flat (aggregated_event c md pid tid r (runtime junk r)))).
  { intros r I. destruct (AR r I) as (id & R). destruct (d_agg _ _ _ _ (D id r R) A) as (_ & _ & _ & Q4). 
    assert (LN : List.length (r_cnt r) = List.length (events c (r_set r))).
    { rewrite Q4. unfold nev. destruct (Nat.eqb_spec (List.length (events c (r_set r))) 0) as [Z|NZ]; [rewrite Z; reflexivity|]. destruct (OK r I) as [K|K]; [rewrite K in NZ; contradiction|].
      destruct (spans H (r_uuid r)); [congruence|]. rewrite map_length, seq_length. reflexivity. }
    unfold append_aggregated. rewrite LN, Nat.ltb_irrefl. f_equal. unfold aggregated_event. rewrite event_flat. rewrite !map_app. cbn [map].
    assert (ST : forall k q, stats k q = Str k :: Colon :: flat (stat_json q)) by reflexivity.
    assert (K1 : forall (l : list (list tok)) x, flat_map (fun y => y ++ [Comma]) l ++ x = seps (l ++ [x])).
    { induction l as [|y l IH]; intros x; [reflexivity|]. cbn [flat_map app]. rewrite seps_cons by (destruct l; discriminate). rewrite <- IH. rewrite <- !app_assoc. reflexivity. }
    assert (K2 : flat_map (fun i => stats (nth i (events c (r_set r)) "") (nth i (r_cnt r) empty_stat) ++ [Comma]) (seq 0 (List.length (events c (r_set r)))) =
                 flat_map (fun y => y ++ [Comma]) (map (fun p => Str (fst p) :: Colon :: flat (snd p)) (combine (events c (r_set r)) (map stat_json (r_cnt r))))).
    { revert LN. generalize (r_cnt r) (events c (r_set r)). intros cs ns. revert cs. induction ns as [|x ns IH]; intros [|y cs] LN; try discriminate; [reflexivity|].
      cbn [List.length seq flat_map map combine nth fst snd]. rewrite ST. f_equal. rewrite <- seq_shift, !flat_map_concat_map, map_map. cbn [nth]. rewrite <- !flat_map_concat_map. apply IH. cbn in LN. congruence. }
    assert (K3 : flat_map (fun p => stats (append "static:::" (fst p)) (snd p) ++ [Comma]) (r_static r) =
                 flat_map (fun y => y ++ [Comma]) (map (fun p => Str (fst p) :: Colon :: flat (snd p)) (map (fun p => (append "static:::" (fst p), stat_json (snd p))) (r_static r)))).
    { rewrite map_map, !flat_map_concat_map, map_map. reflexivity. }
    cbn [fst snd]. rewrite app_assoc with (n := [_]). rewrite <- K1. rewrite flat_map_app, <- K2, <- K3. repeat (rewrite <- app_assoc; cbn [app]). reflexivity. }
  unfold trace_file. rewrite A. assert (B : all_some (map (append_aggregated c md pid tid junk) rs) = Some (map (fun r => flat (aggregated_event c md pid tid r (runtime junk r))) rs)).
  { clear - G. induction rs as [|r rs IH]; [reflexivity|]. cbn [map all_some]. rewrite (G r (or_introl eq_refl)), IH; [reflexivity|]. intros q Q. apply G. right. exact Q. }
  change (map (fun r => append_aggregated c md pid tid junk r) rs) with (map (append_aggregated c md pid tid junk) rs). rewrite B. cbn [option_map]. rewrite loop_nth. cbn [flat map seps fst snd app]. rewrite map_map. do 5 f_equal. rewrite <- app_assoc. reflexivity.
Qed.

(** ** What is not JSON *)
Definition bad_pair (a b : tok) : bool :=
  match a, b with Comma, (RB | RS | Comma) | (LB | LS), Comma => true | _, _ => false end.
Fixpoint stray (l : list tok) : bool := match l with a :: (b :: _) as r => bad_pair a b || stray r | _ => false end.
Definition starts_ok (l : list tok) : Prop := match l with [] => False | t :: _ => match t with Comma | RB | RS => False | _ => True end end.
Definition ends_ok (l : list tok) : Prop := exists l' t, l = l' ++ [t] /\ match t with Comma | LB | LS => False | _ => True end.
Definition fine (l : list tok) : Prop := stray l = false /\ starts_ok l /\ ends_ok l.
Lemma stray_app a b : stray a = false -> stray b = false -> (forall x y a' b', a = a' ++ [x] -> b = y :: b' -> bad_pair x y = false) -> stray (a ++ b) = false.
Proof.
  intros SA SB J. induction a as [|x a IH]; [exact SB|]. destruct a as [|y a].
  - destruct b as [|z b]; [reflexivity|]. cbn [app]. change (bad_pair x z || stray (z :: b) = false). rewrite SB, (J x z [] b eq_refl eq_refl). reflexivity.
  - cbn [app]. change (bad_pair x y || stray ((y :: a) ++ b) = false). change (bad_pair x y || stray (y :: a) = false) in SA. apply orb_false_iff in SA as [S1 S2]. rewrite S1. apply IH; [exact S2|].
    intros p q a' b' E1 E2. apply (J p q (x :: a') b'); [rewrite E1; reflexivity|exact E2].
Qed.
Lemma fine_seps l : Forall fine l -> l <> [] -> fine (seps l).
Proof.
  induction 1 as [|x l FX F IH]; [congruence|]. intros _. destruct l as [|y l]; [exact FX|]. destruct IH as (I1 & I2 & I3); [discriminate|]. destruct FX as (X1 & X2 & (x' & t & X3 & X4)).
  rewrite seps_cons by discriminate. assert (SC : stray (Comma :: seps (y :: l)) = false).
  { destruct (seps (y :: l)) as [|z m] eqn:E; [reflexivity|]. change (bad_pair Comma z || stray (z :: m) = false). rewrite I1. destruct z; cbn in *; tauto. }
  split; [|split].
  - apply stray_app; [exact X1|exact SC|]. intros p q a' b' E1 E2. inversion E2; subst q. rewrite X3 in E1. apply app_inj_tail in E1 as [_ <-]. destruct t; cbn in *; tauto.
  - destruct x; [contradiction X2|exact X2].
  - destruct I3 as (m & t' & E & K). exists (x ++ Comma :: m), t'. rewrite E. rewrite <- app_assoc. split; [reflexivity|exact K].
Qed.
Fixpoint jsize (j : json) : nat := match j with JA l => S (fold_right (fun j n => jsize j + n) 0 l) | JO l => S (fold_right (fun p n => jsize (snd p) + n) 0 l) | _ => 1 end.
Lemma fine_flat : forall j, fine (flat j).
Proof.
  assert (W : forall o cl l, (o = LB /\ cl = RB \/ o = LS /\ cl = RS) -> Forall fine l -> fine (o :: seps l ++ [cl])).
  { intros o cl l OC F. destruct l as [|x l].
    - destruct OC as [[-> ->]|[-> ->]]; (split; [reflexivity|]; split; [exact Logic.I|first [exists [LB], RB; split; [reflexivity|exact Logic.I] | exists [LS], RS; split; [reflexivity|exact Logic.I]]]).
    - destruct (fine_seps (x :: l) F) as (F1 & F2 & (m & t & F3 & F4)); [discriminate|]. split; [|split].
      + destruct (seps (x :: l)) as [|z q] eqn:E; [contradiction F2|]. cbn [app]. change (bad_pair o z || stray ((z :: q) ++ [cl]) = false).
        assert (B : bad_pair o z = false) by (destruct OC as [[-> _]|[-> _]]; destruct z; cbn in *; tauto). rewrite B. apply stray_app; [exact F1|reflexivity|].
        intros p y a' b' E1 E2. inversion E2; subst y. rewrite F3 in E1. apply app_inj_tail in E1 as [_ <-]. destruct OC as [[_ ->]|[_ ->]]; destruct t; cbn in *; tauto.
      + destruct OC as [[-> _]|[-> _]]; exact Logic.I.
      + exists (o :: seps (x :: l)), cl. split; [reflexivity|]. destruct OC as [[_ ->]|[_ ->]]; exact Logic.I. }
  assert (ONE : forall t, match t with Str _ | Num _ | Boo _ => True | _ => False end -> fine [t]).
  { intros t K. split; [reflexivity|]. split; [destruct t; cbn in *; tauto|]. exists [], t. split; [reflexivity|]. destruct t; cbn in *; tauto. }
  assert (G : forall n j, jsize j <= n -> fine (flat j)).
  { induction n as [|n IH]; intros j LE; [destruct j; cbn in LE; lia|]. destruct j as [s|q|b|l|l]; try (apply ONE; exact Logic.I).
    - apply W; [right; auto|]. cbn [jsize] in LE. assert (K : Forall (fun j => jsize j <= n) l).
      { clear - LE. induction l as [|x l IHl]; constructor; cbn [fold_right] in LE; [lia|apply IHl; lia]. }
      apply Forall_forall. intros x X. apply in_map_iff in X as (j & <- & X). apply IH. rewrite Forall_forall in K. apply K. exact X.
    - apply W; [left; auto|]. cbn [jsize] in LE. assert (K : Forall (fun p => jsize (snd p) <= n) l).
      { clear - LE. induction l as [|x l IHl]; constructor; cbn [fold_right] in LE; [lia|apply IHl; lia]. }
      apply Forall_forall. intros x X. apply in_map_iff in X as (p & <- & X). rewrite Forall_forall in K. destruct (IH (snd p) (K p X)) as (F1 & F2 & (m & t & F3 & F4)).
      split; [|split; [exact Logic.I|]].
      + cbv beta. fold flat. destruct (flat (snd p)) as [|z q]; [contradiction F2|].
        change (bad_pair (Str (fst p)) Colon || (bad_pair Colon z || stray (z :: q)) = false). rewrite F1. destruct z; reflexivity.
      + exists (Str (fst p) :: Colon :: m), t. fold flat. rewrite F3. split; [reflexivity|exact F4]. }
  intros j. apply (G (jsize j)). lia.
Qed.
Definition not_json (l : list tok) : Prop := forall j, l <> flat j.
Lemma stray_not_json l : stray l = true -> not_json l.
Proof. intros K j E. destruct (fine_flat j) as (F & _). rewrite <- E in F. congruence. Qed.
(** Regions that were initialised but not entered leave separators behind. *)
Definition c64_md : meta := Md "/src/a.c" "f" 1 2 3 4 (Some "f") (Some "f.json") None None None 7 "for" (Some "SEQUENTIAL") 0 1 0 1 0 1 true false false false.
Definition no_md : meta := Md "/src/a.c" "f" 1 2 3 4 None None None None None 7 "for" None 0 1 0 1 0 1 true false false false.
Definition regions_of (o : out) (l : list nat) : list region := match o with Up s _ => flat_map (fun i => match s_regs s i with Some r => [r] | None => [] end) l | _ => [] end.
Definition written (l : option (list tok)) (P : list tok -> Prop) : Prop := match l with Some t => P t | None => False end.
Lemma written_stray o : match o with Some t => stray t | None => false end = true -> written o not_json.
Proof. destruct o; [apply stray_not_json|discriminate]. Qed.
Definition entered_all (H : list (env * hev)) (rs : list region) : bool := forallb (fun r => match starts H (r_uuid r) with [] => false | _ => true end) rs.
Lemma entered_dec H rs : entered_all H rs = true -> forall r, In r rs -> starts H (r_uuid r) <> [].
Proof. intros K r I. unfold entered_all in K. rewrite forallb_forall in K. specialize (K r I). destruct (starts H (r_uuid r)); congruence. Qed.
Theorem C64_not_entered_refuted : exists H rs s ids, protocol H /\ drive (c62_cfg false) boot H = Up s ids /\ all_regions s rs /\ (forall r, In r rs -> has_names c64_md) /\
  written (trace_file (c62_cfg false) (fun _ => c64_md) 1 1 (0, 0)%Q rs) not_json.
Proof.
  set (H := [at_ 1 (HInit "a" CPU); at_ 2 (HInit "b" CPU); at_ 3 (HFin "b"); at_ 4 (HFin "a")]). assert (P : protocol H) by (apply (closed_dec ["a"; "b"]); reflexivity).
  destruct (C62_never_fails (c62_cfg false) H P) as (s & ids & E). exists H, (regions_of (drive (c62_cfg false) boot H) [1; 2]), s, ids. split; [exact P|]. split; [exact E|].
  split; [rewrite E; intros r I; cbn [regions_of] in I; apply in_flat_map in I as (i & _ & I); destruct (s_regs s i) eqn:ER; [destruct I as [<-|[]]; eauto|destruct I]|].
  split; [intros r _; split; discriminate|]. apply written_stray. vm_compute. reflexivity.
Qed.
(** Without the SDFG's name or file (null pointers, which the code expects) every entry has a comma too many. *)
Theorem C64_no_name_refuted : exists H rs s ids, protocol H /\ drive (c62_cfg false) boot H = Up s ids /\ all_regions s rs /\ (forall r, In r rs -> starts H (r_uuid r) <> []) /\
  written (trace_file (c62_cfg false) (fun _ => no_md) 1 1 (0, 0)%Q rs) not_json.
Proof.
  destruct C62_example as (P & _). destruct (C62_never_fails (c62_cfg false) c62_H P) as (s & ids & E). exists c62_H, (regions_of (drive (c62_cfg false) boot c62_H) [1; 2]), s, ids. split; [exact P|]. split; [exact E|].
  split; [rewrite E; intros r I; cbn [regions_of] in I; apply in_flat_map in I as (i & _ & I); destruct (s_regs s i) eqn:ER; [destruct I as [<-|[]]; eauto|destruct I]|].
  split; [|apply written_stray; vm_compute; reflexivity]. apply entered_dec. vm_compute. reflexivity.
Qed.
(** A program that ends inside a region (exit() is called) in aggregate mode: the counters of a region that was
    never left are read from an empty vector. *)
Theorem C64_exit_inside_refuted : exists H rs s ids, protocol H /\ drive (c62_cfg true) boot H = Up s ids /\ all_regions s rs /\ (forall r, In r rs -> starts H (r_uuid r) <> []) /\
  trace_file (c62_cfg true) (fun _ => c64_md) 1 1 (0, 0)%Q rs = None.
Proof.
  set (H := body_of "a" 1). assert (P : protocol H). { intros u. destruct (string_dec u "a") as [->|N]; [discriminate|]. unfold phase_of. rewrite (foreign ["a"] H u); [discriminate|reflexivity|]. intros [K|[]]. congruence. }
  destruct (C62_never_fails (c62_cfg true) H P) as (s & ids & E). exists H, (regions_of (drive (c62_cfg true) boot H) [1]), s, ids. split; [exact P|]. split; [exact E|].
  split; [rewrite E; intros r I; cbn [regions_of] in I; apply in_flat_map in I as (i & _ & I); destruct (s_regs s i) eqn:ER; [destruct I as [<-|[]]; eauto|destruct I]|].
  split; [|vm_compute; reflexivity]. apply entered_dec. vm_compute. reflexivity.
Qed.
(** A case of the hypotheses of C64_trace_partial. *)
Theorem C64_example : protocol c62_H /\ (forall r, In r (regions_of (drive (c62_cfg false) boot c62_H) [1; 2]) -> starts c62_H (r_uuid r) <> [] /\ has_names c64_md) /\
  List.length (regions_of (drive (c62_cfg false) boot c62_H) [1; 2]) = 2.
Proof.
  split; [exact (proj1 C62_example)|]. split; [|reflexivity]. intros r I. split; [|split; discriminate]. revert r I. apply entered_dec. vm_compute. reflexivity.
Qed.

(** ** Event lists and region names *)
(** The events asked for are the parts between the commas. *)
Fixpoint join (l : list string) : string := match l with [] => "" | [x] => x | x :: l => append x (append "," (join l)) end.
Definition no_comma (s : string) : bool := sall (fun a => negb (Ascii.eqb a ",")) s.
Lemma split_at_ok s : forall acc, no_comma acc = true -> join (split_at acc s) = append acc s /\ Forall (fun x => no_comma x = true) (split_at acc s) /\ split_at acc s <> [].
Proof.
  induction s as [|a s IH]; intros acc NA.
  - cbn. rewrite sapp_nil. split; [reflexivity|]. split; [constructor; [exact NA|constructor]|discriminate].
  - cbn [split_at]. destruct (Ascii.eqb_spec a ",") as [->|N].
    + destruct (IH "" eq_refl) as (I1 & I2 & I3). split; [|split; [constructor; assumption|discriminate]]. destruct (split_at "" s) as [|x l] eqn:E; [congruence|]. 
      change (append acc (append "," (join (x :: l))) = append acc (String "," s)). rewrite I1. reflexivity.
    + assert (NA' : no_comma (append acc (String a "")) = true).
      { clear - NA N. unfold no_comma in *. induction acc as [|b acc IH]; cbn in *; [destruct (Ascii.eqb_spec a ","); [contradiction|reflexivity]|]. apply andb_prop in NA as [N1 N2]. rewrite N1. apply IH, N2. }
      destruct (IH _ NA') as (I1 & I2 & I3). split; [rewrite I1, sapp_assoc; reflexivity|auto].
Qed.
Theorem C64_event_list : forall s, join (split_string s) = s /\ (forall x, In x (split_string s) -> no_comma x = true) /\ (split_string s = [] <-> s = "").
Proof.
  intros s. unfold split_string. destruct s as [|a s]; [split; [reflexivity|]; split; [intros x []|tauto]|]. destruct (split_at_ok (String a s) "" eq_refl) as (I1 & I2 & I3).
  split; [exact I1|]. split; [apply Forall_forall; exact I2|]. split; [contradiction|discriminate].
Qed.
(** Different elements, or elements of different SDFGs, are different regions. *)
Lemma us_suffix : forall a b s t, sall not_us s = true -> sall not_us t = true -> append a (append "_" s) = append b (append "_" t) -> a = b /\ s = t.
Proof.
  assert (NO : forall a s t, sall not_us s = true -> s <> append a (append "_" t)).
  { induction a as [|x a IH]; intros s t K E; destruct s as [|y s]; try discriminate; cbn in E; inversion E; subst.
    - cbn in K. discriminate.
    - cbn in K. apply andb_prop in K as [_ K]. exact (IH _ _ K eq_refl). }
  induction a as [|x a IH]; intros [|y b] s t SS ST E; cbn [append] in E.
  - inversion E. auto.
  - injection E as _ E. exfalso. exact (NO b s t SS E).
  - injection E as _ E. exfalso. exact (NO a t s ST (eq_sym E)).
  - injection E as -> E. destruct (IH b s t SS ST E) as [-> ->]. auto.
Qed.
Theorem C62_region_names : forall sdfg sdfg' e e', region_uuid sdfg e = region_uuid sdfg' e' -> sdfg = sdfg' /\ e = e'.
Proof. intros a b e e' E. apply us_suffix in E as [E1 E2]; [|apply to_string_u_us..]. split; [exact E1|apply to_string_u_inj; exact E2]. Qed.

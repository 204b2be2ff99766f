(** Properties of the dependency analysis (C20) and of For2Map (C21).

    Specification side: [runsT] (Trace.v) is execution with the log of cells
    read and written; [exposed T x j]: cell j of x is read before it is written
    in the log T; [written T x j]: it is written; [inst1 I i body (v, T)]: one
    iteration with i = v and log T; [iterL]: iterations one after the other;
    [raw I i body v]: one iteration with i = v; [trip]: the values the loop
    variable goes through. *)
From Coq Require Import Permutation.
From Verif Require Import Sym SymFacts SymFuns SymProofs2 SymProofs3 SymProofs4 SymProps IR IRFacts IRRefine PassCFG PassInline PassCFGProofs2 PassCFGProps LoopTile LoopIter LoopProps Trace Reorder Interchange DepAna DepProofs For2MapProofs DepOracle.
Local Open Scope string_scope.
Local Open Scope Z_scope.

(** The documented meaning of the three set questions, over valuations [B] that
    satisfy the assumptions. *)
Definition honest (i : string) (B : env -> Prop) (O : oracle) : Prop :=
  (forall e e', is_disjoint O e e' = true -> forall s s' j j', B s -> B s' -> evals s e = Some j -> evals s' e' = Some j' -> j <> j') /\
  (forall e e', is_subset O e e' = true -> forall s j, B s -> evals s e = Some j -> exists s', B s' /\ evals s' e' = Some j) /\
  (forall e e', intersects O e e' = false -> forall s s' j j', B s -> B s' -> s i <> s' i -> evals s e = Some j -> evals s' e' = Some j' -> j <> j').

(* ======================= C20 ======================= *)
(** Two different iterations access the same cell, at least one writing it: if
    the other one reads it before writing it, a read-write dependency is
    reported on the container; if both write it, some dependency is. *)
Definition C20_full : Prop := forall O sc I i u body B its a m,
  straight body = true -> wt_body sc body -> honest i B O ->
  iterL (inst1 I i body) its a m -> NoDup (map fst its) ->
  (forall it, In it its -> B (upd (env_of a) i (fst it))) ->
  forall p q it it' x j, p <> q -> nth_error its p = Some it -> nth_error its q = Some it' -> x <> i ->
    (exposed (snd it) x j -> written (snd it') x j -> reported_rw O sc body u x = true) /\
    (written (snd it) x j -> written (snd it') x j -> reported O sc body u x = true).

(** Proved when, within one iteration, accesses that the analysis treats as
    covering each other do touch the same cell ([same_cell] in [oracle_ok]):
    the part that the documented meaning of is_disjoint and is_subset does not give. *)
Theorem C20_dependencies_partial : forall O sc I i u body its a m,
  straight body = true -> wt_body sc body ->
  iterL (inst1 I i body) its a m -> oracle_ok O sc its ->
  forall p q it it' x j, p <> q -> nth_error its p = Some it -> nth_error its q = Some it' -> x <> i ->
    (exposed (snd it) x j -> written (snd it') x j -> reported_rw O sc body u x = true) /\
    (written (snd it) x j -> written (snd it') x j -> reported O sc body u x = true).
Proof. intros. eapply deps_sound; eauto. Qed.
(** With the modelled is_disjoint_monotonic for the cross-iteration question no
    assumption about the answers is left. *)
Theorem C20_syntactic_partial : forall A sc I i u body its a m,
  straight body = true -> wt_body sc body -> sc i = true ->
  (forall y, In y (idx_syms body) -> ~ In y (swrites body)) -> no_trunc_A A ->
  (forall x e, In (Wr (x, e)) (sacc body) -> sc x = false ->
     Forall (fun d => forall b n, d = EPow (ESym b) n -> b = i) e /\ forallb no_trunc e = true) ->
  iterL (inst1 I i body) its a m -> NoDup (map fst its) ->
  (forall v, In v (map fst its) -> sat_dep (upd (env_of a) i v) A) ->
  (forall v w, agree_const A (upd (env_of a) i v) (upd (env_of a) i w)) ->
  forall p q it it' x j, p <> q -> nth_error its p = Some it -> nth_error its q = Some it' -> x <> i ->
    (exposed (snd it) x j -> written (snd it') x j -> reported_rw (syntactic i A) sc body u x = true) /\
    (written (snd it) x j -> written (snd it') x j -> reported (syntactic i A) sc body u x = true).
Proof. intros. eapply deps_sound; eauto. eapply syntactic_ok; eauto. Qed.

(** A[i] = 7; B[i] = A[i-1]: the read of A[i-1] counts as defined by the write
    of A[i], because the ranges of both subsets over the whole loop overlap; so
    whatever the three questions answer within their documented meaning, no
    read-write dependency on A is reported, although iteration i+1 reads what
    iteration i wrote. *)
Definition flow_ops : block := [
  {| o_code := 0; o_ins := [OConst 7]; o_out := "A"; o_sub := [ESym "i"] |};
  {| o_code := 0; o_ins := [ORead "A" [EAdd [EInt (-1); ESym "i"]]]; o_out := "B"; o_sub := [ESym "i"] |}].
Definition flow_body : seq := one (NBlock flow_ops).
Definition flow_sc (x : string) : bool := negb (String.eqb x "A" || String.eqb x "B").
Definition bounds4 (s : env) : Prop := 1 <= s "i" < 5.
Lemma flow_disjoint O : honest "i" bounds4 O -> is_disjoint O [EAdd [EInt (-1); ESym "i"]] [ESym "i"] = false.
Proof.
  intros (H & _). destruct (is_disjoint O _ _) eqn:E; [|reflexivity]. exfalso.
  apply (H _ _ E (fun _ => 2) (fun _ => 1) [1] [1]); unfold bounds4; try lia; reflexivity.
Qed.
Lemma flow_state O : honest "i" bounds4 O -> loop_state O flow_sc flow_body (nxt "i") = ([("i", []); ("i", []); ("i", []); ("i", [])], [("B", [ESym "i"]); ("A", [ESym "i"])]).
Proof.
  intros H. pose proof (flow_disjoint O H) as D. unfold loop_state, visits. cbn -[depends closes].
  repeat (unfold visit; cbn -[depends closes]; unfold depends, closes; cbn [fst snd String.eqb Ascii.eqb Bool.eqb andb orb negb existsb flow_sc filter]; rewrite ?D; cbn [fst snd String.eqb Ascii.eqb Bool.eqb andb orb negb existsb filter]).
  reflexivity.
Qed.
Lemma flow_items : exists its m, iterL (inst1 I0 "i" flow_body) its st0 m /\ map fst its = [1; 2] /\
  exists it it', nth_error its 1 = Some it /\ nth_error its 0 = Some it' /\ exposed (snd it) "A" [1] /\ written (snd it') "A" [1].
Proof.
  assert (G: forall v a b, exec_block I0 (wr a "i" [] v) flow_ops = Some b ->
    inst1 I0 "i" flow_body (v, Ev true "i" [] [] :: block_trace I0 (wr a "i" [] v) flow_ops) a b).
  { intros v a b H. exists (block_trace I0 (wr a "i" [] v) flow_ops), ONorm. split; [reflexivity|]. split; [auto|].
    cbn [fst]. replace (block_trace I0 (wr a "i" [] v) flow_ops) with (block_trace I0 (wr a "i" [] v) flow_ops ++ asg_trace [] ++ [])%list by (apply app_nil_r).
    unfold flow_body, one. eapply T_cons; [apply T_block; exact H|reflexivity|apply T_nil]. }
  destruct (exec_block I0 (wr st0 "i" [] 1) flow_ops) as [b1|] eqn:E1; [|discriminate].
  destruct (exec_block I0 (wr b1 "i" [] 2) flow_ops) as [b2|] eqn:E2; [|vm_compute in E1; injection E1 as <-; discriminate].
  eexists [_; _], b2. split; [simpl; eexists; split; [exact (G _ _ _ E1)|]; eexists; split; [exact (G _ _ _ E2)|apply eqx_refl]|].
  split; [reflexivity|]. do 2 eexists. split; [reflexivity|]. split; [reflexivity|]. split.
  - cbn [snd]. vm_compute. intuition congruence.
  - exists [ESym "i"]. vm_compute. auto.
Qed.
Theorem C20_flow_refuted : forall O, honest "i" bounds4 O ->
  reported_rw O flow_sc flow_body (nxt "i") "A" = false /\
  exists its m, iterL (inst1 I0 "i" flow_body) its st0 m /\ map fst its = [1; 2] /\
    exists it it', nth_error its 1 = Some it /\ nth_error its 0 = Some it' /\ exposed (snd it) "A" [1] /\ written (snd it') "A" [1].
Proof.
  intros O H. split; [|apply flow_items]. unfold reported_rw. rewrite (flow_state O H). reflexivity.
Qed.

Definition conservative : oracle := {| is_disjoint := fun _ _ => false; is_subset := fun _ _ => false; intersects := fun _ _ => true |}.
Lemma conservative_honest i B : honest i B conservative.
Proof. split; [|split]; simpl; discriminate. Qed.
Theorem C20_full_refuted : ~ C20_full.
Proof.
  intros F. destruct (C20_flow_refuted conservative (conservative_honest _ _)) as (R & its & m & L & E & it & it' & H1 & H0 & X & W).
  assert (WB: wt_body flow_sc flow_body).
  { split; [|split]; simpl; try tauto. intros a Ha. repeat (destruct Ha as [<-|Ha]; [simpl; discriminate || reflexivity|]). elim Ha. }
  destruct (F conservative flow_sc I0 "i" (nxt "i") flow_body bounds4 its st0 m eq_refl WB (conservative_honest _ _) L) with (p := 1%nat) (q := O) (it := it) (it' := it') (x := "A") (j := [1]) as (A1 & _); auto; try discriminate.
  - rewrite E. repeat constructor; simpl; intuition discriminate.
  - intros t Ht. apply (in_map fst) in Ht. rewrite E in Ht. unfold bounds4, upd. simpl. simpl in Ht. lia.
  - rewrite (A1 X W) in R. discriminate.
Qed.

(** t = C[i]; B[i] = t; C[i] = B[i-1]; k = 3: a read-write dependency is reported on B
    and none on C or t, and the hypotheses of C20_syntactic_partial hold. *)
Definition dep_A : assumptions := one_assum "i" (vrange 0 100).
Definition carried_body : seq := SCons (NBlock [
  {| o_code := 0; o_ins := [ORead "C" [ESym "i"]]; o_out := "t"; o_sub := [] |};
  {| o_code := 0; o_ins := [ORead "t" []]; o_out := "B"; o_sub := [ESym "i"] |};
  {| o_code := 0; o_ins := [ORead "B" [EAdd [EInt (-1); ESym "i"]]]; o_out := "C"; o_sub := [ESym "i"] |}]) [("k", EInt 3)] SNil.
Definition dep_sc (x : string) : bool := negb (String.eqb x "C" || String.eqb x "B").
Lemma dep_A_ok : no_trunc_A dep_A /\ (forall st v w, agree_const dep_A (upd st "i" v) (upd st "i" w)) /\
  (forall st v, 0 <= v <= 100 -> sat_dep (upd st "i" v) dep_A).
Proof.
  unfold dep_A, one_assum. split; [|split].
  - intros x a. destruct (String.eqb _ _); [|discriminate]. intros [= <-]. repeat split; try reflexivity; simpl; intros b [= <-]; reflexivity.
  - intros st v w y a. destruct (String.eqb _ _); [|discriminate]. intros [= <-]. discriminate.
  - intros st v Hv x a. destruct (String.eqb_spec x "i") as [->|]; [|discriminate]. intros [= <-]. unfold upd. simpl. cbn. lia.
Qed.
Example C20_nonvacuous : straight carried_body = true /\ wt_body dep_sc carried_body /\
  (forall y, In y (idx_syms carried_body) -> ~ In y (swrites carried_body)) /\
  (forall x e, In (Wr (x, e)) (sacc carried_body) -> dep_sc x = false -> Forall (fun d => forall b n, d = EPow (ESym b) n -> b = "i") e /\ forallb no_trunc e = true) /\
  reported_rw (syntactic "i" dep_A) dep_sc carried_body (nxt "i") "B" = true /\
  reported (syntactic "i" dep_A) dep_sc carried_body (nxt "i") "C" = false /\
  reported_rw (syntactic "i" dep_A) dep_sc carried_body (nxt "i") "t" = false /\
  reported (syntactic "i" dep_A) dep_sc carried_body (nxt "i") "t" = true.
Proof.
  split; [reflexivity|]. split.
  { split; [|split]; simpl; [|intros x [<-|[]]; reflexivity|tauto]. intros a Ha. repeat (destruct Ha as [<-|Ha]; [simpl; try discriminate; reflexivity|]). elim Ha. }
  split. { simpl. intros y Hy H. intuition (subst; discriminate). }
  split. { simpl. intros x e Hx _. repeat (destruct Hx as [Hx|Hx]; [try discriminate Hx; injection Hx as <- <-; (split; [|reflexivity]); repeat (apply Forall_cons; [intros; discriminate|]); apply Forall_nil|]). elim Hx. }
  repeat split; vm_compute; reflexivity.
Qed.

(* ======================= C21 ======================= *)
(** Whenever For2Map accepts a loop, its iterations can be executed in any order:
    the result differs from the sequential one at most in the loop variable and
    the body's local containers. *)
Definition any_order (I : nat -> list Z -> option Z) (locals : string -> bool) (i : string) (init : expr) (c : cond) (u : expr) (body : seq) (st st' : store) : Prop :=
  exists v vs e, eval (env_of st) init = Some v /\ trip (env_of st) i c u v vs e /\ st' i [] = e /\
    forall vs', Permutation vs vs' -> exists m, iterL (raw I i body) vs' st m /\ forall x j, x <> i -> locals x = false -> m x j = st' x j.
Definition C21_full : Prop := forall O sc locals A I B i init c u body q st st',
  honest i B O -> for2map O sc locals A (NLoop KFor i init c u body) = Some q -> wt_body sc body -> sc i = true ->
  (forall v vs e w, eval (env_of st) init = Some v -> trip (env_of st) i c u v vs e -> In w vs -> B (upd (env_of st) i w)) ->
  run I (NLoop KFor i init c u body) st ONorm st' -> any_order I locals i init c u body st st'.

(** Beyond acceptance: what the analysis assumes about covering accesses
    ([oracle_ok]), and the body must not write the symbols of the header. *)
Theorem C21_any_order_partial : forall O sc locals A I i init c u body q st st',
  for2map O sc locals A (NLoop KFor i init c u body) = Some q -> wt_body sc body -> sc i = true -> stable i c u body ->
  run I (NLoop KFor i init c u body) st ONorm st' ->
  (forall its m, iterL (inst1 I i body) its st m -> (exists v e, eval (env_of st) init = Some v /\ trip (env_of st) i c u v (map fst its) e) -> oracle_ok O sc its) ->
  any_order I locals i init c u body st st' /\ q = NLoop KMap i init c u body.
Proof.
  intros O sc locals A I i init c u body q st st' ACC WT SI STB R OK. split.
  - exact (for2map_any_order O sc locals A I i init c u body q ACC WT SI STB st st' R OK).
  - unfold for2map in ACC. destruct (_ && _); [congruence|discriminate].
Qed.
Theorem C21_syntactic_partial : forall sc locals A I i init c u body q st st',
  for2map (syntactic i A) sc locals A (NLoop KFor i init c u body) = Some q -> wt_body sc body -> sc i = true -> stable i c u body ->
  (forall y, In y (idx_syms body) -> ~ In y (swrites body)) -> no_trunc_A A ->
  (forall x e, In (Wr (x, e)) (sacc body) -> sc x = false ->
     Forall (fun d => forall b n, d = EPow (ESym b) n -> b = i) e /\ forallb no_trunc e = true) ->
  (forall v, cev (upd (env_of st) i v) c = Some true -> sat_dep (upd (env_of st) i v) A) ->
  (forall v w, agree_const A (upd (env_of st) i v) (upd (env_of st) i w)) ->
  run I (NLoop KFor i init c u body) st ONorm st' -> any_order I locals i init c u body st st'.
Proof.
  intros sc locals A I i init c u body q st st' ACC WT SI STB FIX NT WS SD AC R.
  refine (proj1 (C21_any_order_partial _ _ _ _ _ _ _ _ _ _ _ _ _ ACC WT SI STB R _)).
  intros its m L (v & e & Ev0 & T). eapply syntactic_ok; eauto.
  - unfold for2map in ACC. destruct (straight body); [reflexivity|]. rewrite andb_false_r in ACC. discriminate.
  - eapply trip_nodup; eauto.
  - intros w Hw. apply SD. clear - T Hw. induction T; [elim Hw|]. destruct Hw as [<-|Hw]; auto.
Qed.

(** The loop of C20_flow_refuted is accepted whenever A[i] and B[i] are known to
    be written once; executing its iterations backwards changes B. *)
Definition flow_loop (q : kind) : node := NLoop q "i" (EInt 1) (CLt (ESym "i") (EInt 5)) (nxt "i") flow_body.
Lemma flow_accepted O A : honest "i" bounds4 O -> intersects O [ESym "i"] [ESym "i"] = false -> series_is_monotonic (nxt "i") "i" A = true ->
  for2map O flow_sc (fun _ => false) A (flow_loop KFor) = Some (flow_loop KMap).
Proof.
  intros H X M. unfold for2map, flow_loop. rewrite M. cbn [straight nstraight flow_body one andb].
  rewrite (flow_state O H). cbn [fst snd map forallb]. unfold reported_rw, reported. rewrite (flow_state O H).
  unfold dep_rw, dep_ww, loop_depends. cbn. rewrite X. reflexivity.
Qed.
Lemma raw_step v a m : raw I0 "i" flow_body v a m -> exec_block I0 (wr a "i" [] v) flow_ops = Some m.
Proof.
  intros (o & Ho & R). unfold flow_body, one in R. inversion R; subst; [|match goal with H : run _ _ _ _ _ |- _ => inversion H; subst end; congruence].
  repeat match goal with H : runs _ SNil _ _ _ |- _ => inversion H; subst; clear H | H : run _ _ _ _ _ |- _ => inversion H; subst; clear H | H : exec_assigns _ [] = Some _ |- _ => injection H as <- end. assumption.
Qed.
Lemma flow_trip : trip (env_of st0) "i" (CLt (ESym "i") (EInt 5)) (nxt "i") 1 [1; 2; 3; 4] 5.
Proof. repeat (eapply T_next; [vm_compute; reflexivity|vm_compute; reflexivity|]). apply T_end. vm_compute. reflexivity. Qed.
Theorem C21_flow_refuted : forall O, honest "i" bounds4 O -> intersects O [ESym "i"] [ESym "i"] = false ->
  for2map O flow_sc (fun _ => false) dep_A (flow_loop KFor) = Some (flow_loop KMap) /\
  exists st', run I0 (flow_loop KFor) st0 ONorm st' /\ ~ any_order I0 (fun _ => false) "i" (EInt 1) (CLt (ESym "i") (EInt 5)) (nxt "i") flow_body st0 st'.
Proof.
  intros O H X. split; [apply flow_accepted; auto|].
  destruct (xnode I0 50 (flow_loop KFor) st0) as [[o st']|] eqn:E; [|vm_compute in E; discriminate].
  assert (o = ONorm) as -> by (vm_compute in E; congruence). exists st'. split; [eapply xnode_run; exact E|].
  intros (v & vs & e & Ev0 & T & Ee & K). assert (v = 1) as -> by (vm_compute in Ev0; congruence).
  destruct (trip_det _ _ _ _ _ _ _ T _ _ flow_trip) as (-> & _).
  destruct (K [4; 3; 2; 1]) as (m & L & Q). { apply (Permutation_rev [1; 2; 3; 4]). }
  specialize (Q "B" [2] ltac:(discriminate) eq_refl).
  destruct L as (m1 & R1 & m2 & R2 & m3 & R3 & m4 & R4 & S). apply raw_step in R1, R2, R3, R4.
  rewrite <- (steq_at _ _ "B" [2] S) in Q. 
  assert (st' "B" [2] = 7). { vm_compute in E. injection E as <-. reflexivity. }
  rewrite H0 in Q. vm_compute in R1. injection R1 as <-. vm_compute in R2. injection R2 as <-. vm_compute in R3. injection R3 as <-. vm_compute in R4. injection R4 as <-.
  vm_compute in Q. discriminate.
Qed.
Theorem C21_full_refuted : ~ C21_full.
Proof.
  intros F. pose (O := {| is_disjoint := fun _ _ => false; is_subset := fun _ _ => false;
    intersects := fun e e' => negb (subset_eqb e [ESym "i"] && subset_eqb e' [ESym "i"]) |}).
  assert (HO: honest "i" bounds4 O).
  { split; [|split]; simpl; try discriminate. intros e e' H s s' j j' _ _ N. apply negb_false_iff, andb_prop in H as [H1 H2].
    apply subset_eqb_eq in H1, H2. subst. cbn. congruence. }
  destruct (C21_flow_refuted O HO eq_refl) as (ACC & st' & R & N). apply N.
  eapply (F O flow_sc (fun _ => false) dep_A I0 bounds4); eauto.
  - split; [|split]; simpl; try tauto. intros a Ha. repeat (destruct Ha as [<-|Ha]; [simpl; discriminate || reflexivity|]). elim Ha.
  - intros v vs e w Hv T Hw. assert (v = 1) as -> by (vm_compute in Hv; congruence). destruct (trip_det _ _ _ _ _ _ _ T _ _ flow_trip) as (-> & _).
    unfold bounds4, upd. simpl. simpl in Hw. lia.
Qed.

(** N = 5 inside "for (i = 0; i < N; i++) A[i] = 7": a constant scalar assignment
    without a read in the body, so the loop becomes a Map; with N = 3 at entry the
    sequential loop writes A[4], which no iteration of the Map's range does. *)
Definition bound_body : seq := SCons (NBlock [{| o_code := 0; o_ins := [OConst 7]; o_out := "A"; o_sub := [ESym "i"] |}]) [("N", EInt 5)] SNil.
Definition bound_loop (k : kind) : node := NLoop k "i" (EInt 0) (CLt (ESym "i") (ESym "N")) (nxt "i") bound_body.
Theorem C21_bound_refuted : let st := wr st0 "N" [] 3 in
  for2map (syntactic "i" dep_A) flow_sc (fun _ => false) dep_A (bound_loop KFor) = Some (bound_loop KMap) /\
  trip (env_of st) "i" (CLt (ESym "i") (ESym "N")) (nxt "i") 0 [0; 1; 2] 3 /\
  exists st', run I0 (bound_loop KFor) st ONorm st' /\
    forall m, iterL (raw I0 "i" bound_body) [0; 1; 2] st m -> m "A" [4] <> st' "A" [4].
Proof.
  cbv zeta. split; [reflexivity|]. split.
  { repeat (eapply T_next; [vm_compute; reflexivity|vm_compute; reflexivity|]). apply T_end. vm_compute. reflexivity. }
  destruct (xnode I0 50 (bound_loop KFor) (wr st0 "N" [] 3)) as [[o st']|] eqn:E; [|vm_compute in E; discriminate].
  assert (o = ONorm) as -> by (vm_compute in E; congruence). exists st'. split; [eapply xnode_run; exact E|].
  assert (Q: st' "A" [4] = 7) by (vm_compute in E; injection E as <-; reflexivity). rewrite Q. clear E Q.
  assert (G: forall v a b, v <> 4 -> raw I0 "i" bound_body v a b -> b "A" [4] = a "A" [4]).
  { intros v a b Nv (o & Ho & R). unfold bound_body in R. inversion R; subst; [|match goal with H : run _ _ _ _ _ |- _ => inversion H; subst end; congruence].
    repeat match goal with H : runs _ SNil _ _ _ |- _ => inversion H; subst; clear H | H : run _ _ _ _ _ |- _ => inversion H; subst; clear H end.
    match goal with H : exec_block _ _ _ = Some _ |- _ => cbn in H; injection H as <- end.
    match goal with H : exec_assigns _ _ = Some _ |- _ => cbn in H; injection H as <- end.
    rewrite !wr_other; auto; intros [Q1 Q2]; try discriminate. congruence. }
  intros m (m1 & R1 & m2 & R2 & m3 & R3 & S). rewrite <- (steq_at _ _ "A" [4] S).
  rewrite (G 2 _ _ ltac:(lia) R3), (G 1 _ _ ltac:(lia) R2), (G 0 _ _ ltac:(lia) R1). vm_compute. discriminate.
Qed.

(** t = C[i]; B[i] = t; k = 3 for i < n: accepted with the local t and the constant
    scalar k, and every hypothesis of C21_syntactic_partial holds. *)
Definition par_body : seq := SCons (NBlock [
  {| o_code := 0; o_ins := [ORead "C" [ESym "i"]]; o_out := "t"; o_sub := [] |};
  {| o_code := 0; o_ins := [ORead "t" []]; o_out := "B"; o_sub := [ESym "i"] |}]) [("k", EInt 3)] SNil.
Definition par_loop (k : kind) : node := NLoop k "i" (EInt 0) (CAnd [CLt (ESym "i") (ESym "n"); CLe (EInt 0) (ESym "i")]) (nxt "i") par_body.
Example C21_nonvacuous : let st := wr st0 "n" [] 3 in
  for2map (syntactic "i" dep_A) dep_sc (String.eqb "t") dep_A (par_loop KFor) = Some (par_loop KMap) /\
  wt_body dep_sc par_body /\ stable "i" (CAnd [CLt (ESym "i") (ESym "n"); CLe (EInt 0) (ESym "i")]) (nxt "i") par_body /\
  (forall y, In y (idx_syms par_body) -> ~ In y (swrites par_body)) /\
  (forall x e, In (Wr (x, e)) (sacc par_body) -> dep_sc x = false -> Forall (fun d => forall b n, d = EPow (ESym b) n -> b = "i") e /\ forallb no_trunc e = true) /\
  (forall v, cev (upd (env_of st) "i" v) (CAnd [CLt (ESym "i") (ESym "n"); CLe (EInt 0) (ESym "i")]) = Some true -> sat_dep (upd (env_of st) "i" v) dep_A) /\
  exists st', run I0 (par_loop KFor) st ONorm st' /\ st' "i" [] = 3 /\ st' "k" [] = 3.
Proof.
  cbv zeta. split; [reflexivity|]. split.
  { split; [|split]; simpl; [|intros x [<-|[]]; reflexivity|tauto]. intros a Ha. repeat (destruct Ha as [<-|Ha]; [simpl; try discriminate; reflexivity|]). elim Ha. }
  split. { split; simpl; [intuition discriminate|]. intros x Hx H. intuition (subst; discriminate). }
  split. { simpl. intros y Hy H. intuition (subst; discriminate). }
  split. { simpl. intros x e Hx _. repeat (destruct Hx as [Hx|Hx]; [try discriminate Hx; injection Hx as <- <-; (split; [|reflexivity]); repeat (apply Forall_cons; [intros; discriminate|]); apply Forall_nil|]). elim Hx. }
  split. { intros v Hv. apply dep_A_ok. cbn in Hv. destruct (Z.leb_spec 3 v); destruct (Z.leb_spec 0 v); cbn in Hv; try discriminate; lia. }
  destruct (xnode I0 60 (par_loop KFor) (wr st0 "n" [] 3)) as [[o s]|] eqn:E; [|vm_compute in E; discriminate].
  exists s. assert (o = ONorm) as -> by (vm_compute in E; congruence). split; [eapply xnode_run; eauto|]. vm_compute in E. injection E as <-. split; reflexivity.
Qed.

Print Assumptions C20_dependencies_partial.
Print Assumptions C20_syntactic_partial.
Print Assumptions C20_flow_refuted.
Print Assumptions C21_any_order_partial.
Print Assumptions C21_syntactic_partial.
Print Assumptions C21_flow_refuted.
Print Assumptions C21_bound_refuted.

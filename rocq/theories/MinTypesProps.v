(** * C77: dropping truncations of values that fit *)
From Coq Require Import String List ZArith Bool Lia.
From Verif Require Import Sym SymFacts SymFuns SymProofs1 SymProofs2 IR IRFacts Assum AssumProofs AssumProps Ranges RangesProps MinTypes.
Import ListNotations.
Open Scope string_scope.
Open Scope list_scope.
Open Scope Z_scope.

(** ** Expressions and conditions *)
(** A value the pass calls safe is a 32-bit integer that is not negative. *)
Theorem C77_fits s A e v : holds s A -> no_trunc_A A -> no_trunc e = true -> is_safe_trunc A e = true -> eval s e = Some v -> 0 <= v < 2 ^ 31.
Proof.
  intros HA NA NT S E. apply eval_ev in E. destruct (safe_range s A e HA NA NT S) as (z & Z1 & Z2); [rewrite E; discriminate|].
  rewrite E in Z1. injection Z1 as <-. lia.
Qed.
Lemma untruncs_ev s l : Forall (fun a => ev s (ETrunc a) = ev s a) l -> forall e, ev s (untruncs l e) = ev s e.
Proof. induction l as [|a l IH]; intros F e; cbn; [reflexivity|]. inversion F; subst. unfold untruncs in IH. rewrite IH by assumption. apply untrunc_ev. assumption. Qed.
Lemma cuntruncs_ev s l : Forall (fun a => ev s (ETrunc a) = ev s a) l -> forall c, cev s (cuntruncs l c) = cev s c.
Proof. induction l as [|a l IH]; intros F c; cbn; [reflexivity|]. inversion F; subst. unfold cuntruncs in IH. rewrite IH by assumption. apply cuntrunc_ev. assumption. Qed.
Lemma safe_all s A l : holds s A -> no_trunc_A A -> Forall (fun a => no_trunc a = true /\ is_safe_trunc A a = true) l -> Forall (fun a => ev s (ETrunc a) = ev s a) l.
Proof. intros HA NA F. eapply Forall_impl; [|exact F]. intros a [N S]. eapply safe_ev; eassumption. Qed.
(** Whatever safe truncations are dropped, in whatever order, no index changes its value. *)
Theorem C77_any_order s A l e : holds s A -> no_trunc_A A -> Forall (fun a => no_trunc a = true /\ is_safe_trunc A a = true) l ->
  eval s (untruncs l e) = eval s e.
Proof. intros HA NA F. unfold eval. rewrite (untruncs_ev s l (safe_all s A l HA NA F)). reflexivity. Qed.
(** Loop conditions. *)
Theorem C77_condition s A c : holds s A -> no_trunc_A A -> forallb no_trunc (ctruncs c) = true -> cev s (minimize_cond A c) = cev s c.
Proof.
  intros HA NA F. apply cuntruncs_ev, (safe_all s A _ HA NA). rewrite forallb_forall in F. apply Forall_forall. intros a Ha. apply filter_In in Ha as [Ha S]. auto.
Qed.

(** ** Programs *)
Section Ops.
  Variables (I : nat -> list Z -> option Z) (f : expr -> expr).
  Definition keeps (s : store) : Prop := forall e, eval (env_of s) (f e) = eval (env_of s) e.
  Lemma keeps_evals s l : keeps s -> evals (env_of s) (map f l) = evals (env_of s) l.
  Proof. intros K. induction l as [|e l IH]; cbn; [reflexivity|]. rewrite (K e), IH. reflexivity. Qed.
  Lemma keeps_op s o : keeps s -> exec_op I s (map_op f o) = exec_op I s o.
  Proof.
    intros K. unfold exec_op, map_op. cbn [o_code o_ins o_out o_sub]. rewrite (keeps_evals s _ K).
    replace (reads_in s (map (map_operand f) (o_ins o))) with (reads_in s (o_ins o)); [reflexivity|].
    induction (o_ins o) as [|x l IH]; cbn; [reflexivity|]. rewrite IH. destruct x as [z|y sub]; cbn; [reflexivity|]. rewrite (keeps_evals s sub K). reflexivity.
  Qed.
  Lemma keeps_block b : forall s, (forall pre op post s2, b = pre ++ op :: post -> exec_block I s pre = Some s2 -> keeps s2) -> exec_block I s (map (map_op f) b) = exec_block I s b.
  Proof.
    induction b as [|o b IH]; intros s K; cbn; [reflexivity|]. rewrite keeps_op by (apply (K [] o b s); reflexivity).
    destruct (exec_op I s o) as [s1|] eqn:E; [|reflexivity]. apply IH. intros pre op post s2 -> X. apply (K (o :: pre) op post s2); [reflexivity|]. cbn. rewrite E. exact X.
  Qed.
End Ops.

(** The loops are known around each block; [As] gives the assumptions of their innermost body. *)
Definition at_accesses (I : nat -> list Z -> option Z) (p : node) (st : store) (P : list hdr -> block -> store -> Prop) : Prop :=
  forall ctx b st1 pre op post st2, reaches I p st ctx (NBlock b) st1 -> b = pre ++ op :: post -> exec_block I st1 pre = Some st2 -> P ctx b st2.
(** If the assumptions hold whenever a statement executes, the changed program behaves as
    the original does. *)
Theorem C77_program I As p st o st' :
  at_accesses I p st (fun ctx b s => holds (env_of s) (As ctx) /\ no_trunc_A (As ctx) /\ Forall (fun a => no_trunc a = true) (concat (map truncs (block_subs b)))) ->
  run I p st o st' -> run I (minimize As p) st o st'.
Proof.
  intros H R. apply (proj1 (map_sim _ I)) with (pre := []); [exact R|]. intros ctx b s s' RC X. cbn [app]. rewrite <- X. apply keeps_block.
  intros pre op post s2 E X2. destruct (H ctx b s pre op post s2 RC E X2) as (H1 & H2 & H3). intros e. apply C77_any_order with (A := As ctx); auto.
  unfold safe_truncs. rewrite Forall_forall in H3. apply Forall_forall. intros a Ha. apply filter_In in Ha as [Ha S]. auto.
Qed.
(** In particular with the bounds the assumptions analysis derives from the loops (C39);
    missing: the bounds it takes from the types of symbols the program writes. *)
Theorem C77_loop_bounds_partial I consts inv A T p st o st' :
  tameN consts inv A T p -> fixed A (nwrites p) -> holds (env_of st) A ->
  at_accesses I p st (fun ctx b _ => no_trunc_A (assums_at consts inv A T ctx) /\ Forall (fun a => no_trunc a = true) (concat (map truncs (block_subs b)))) ->
  run I p st o st' -> run I (minimize (assums_at consts inv A T) p) st o st'.
Proof.
  intros W F H NT R. apply C77_program; [|exact R]. intros ctx b s1 pre op post s2 RC E X. destruct (NT ctx b s1 pre op post s2 RC E X) as [N1 N2].
  split; [|split; assumption]. eapply good_holds, good_frame; [|apply (proj1 (reach_sound I consts inv) _ _ _ _ _ RC A T W (fixed_good _ _ _ F H))].
  intros y Hy. unfold env_of. eapply exec_keeps; [exact X|]. intros Q. apply Hy. cbn [nwrites]. rewrite E, map_app, in_app_iff. auto.
Qed.

(** ** A program it applies to: for (i = 0; i < 100; i++) A[trunc_i32(2 * i)] = B[i] *)
Definition c77_I (c : nat) (vs : list Z) : option Z := match vs with [v] => Some v | _ => None end.
Definition c77_body (e : expr) : block := [{| o_code := 0%nat; o_ins := [ORead "B" [ESym "i"]]; o_out := "A"; o_sub := [e] |}].
Definition c77_loop (e : expr) : node := NLoop KFor "i" (EInt 0) (CLt (ESym "i") (EInt 100)) (EAdd [EInt 1; ESym "i"]) (SCons (NBlock (c77_body e)) [] SNil).
Definition c77_e : expr := EMul [EInt 2; ESym "i"].
Definition c77_As : list hdr -> assumptions := assums_at (const_syms (fun _ => true)) (inv_of []) no_entry no_entry.
Lemma loop1_reaches I h bl st ctx m st' : h_body h = SCons (NBlock bl) [] SNil -> reachesL I h st ctx m st' -> ctx = [h] /\ m = NBlock bl.
Proof.
  intros B R. induction R as [h st ctx m st' C R|h st o1 st1 v ctx m st' C R1 O E R IH]; [|apply IH, B].
  rewrite B in R. inversion R as [? ? ? ? ? ? ? R2|? ? ? ? ? ? ? ? ? ? ? R2]; subst; [|inversion R2]. inversion R2; subst. auto.
Qed.
Definition c77_h (e : expr) : hdr := {| h_i := "i"; h_init := EInt 0; h_c := CLt (ESym "i") (EInt 100); h_u := EAdd [EInt 1; ESym "i"]; h_body := SCons (NBlock (c77_body e)) [] SNil |}.
Lemma c77_supp y a : c77_As [c77_h (ETrunc c77_e)] y = Some a -> In y c69_L.
Proof.
  apply supp_at_ctx; [|intros z b Q; discriminate Q]. intros h [<-|[]] T. apply body_supp.
  - cbn. auto.
  - apply inL_ok. vm_compute. reflexivity.
  - apply inL_ok. vm_compute. reflexivity.
  - intros N ub E1 E2. apply inL_ok. vm_compute in E1. injection E1 as <-. vm_compute in E2. injection E2 as <-. vm_compute. reflexivity.
Qed.
Lemma c77_plain : no_trunc_A (c77_As [c77_h (ETrunc c77_e)]).
Proof.
  intros y b E. pose proof (c77_supp y b E) as Hy.
  repeat (destruct Hy as [<-|Hy]; [vm_compute in E; first [discriminate E|injection E as <-; repeat split; try reflexivity; intros c; cbn; intros Q; first [discriminate Q|injection Q as <-; reflexivity]]|]). destruct Hy.
Qed.
Theorem C77_hypotheses : minimize c77_As (c77_loop (ETrunc c77_e)) = c77_loop c77_e /\
  forall st o st', run c77_I (c77_loop (ETrunc c77_e)) st o st' -> run c77_I (c77_loop c77_e) st o st'.
Proof.
  assert (E : minimize c77_As (c77_loop (ETrunc c77_e)) = c77_loop c77_e) by (vm_compute; reflexivity). split; [exact E|]. intros st o st' R. rewrite <- E.
  apply C77_loop_bounds_partial; [| | | |exact R].
  - cbn [tameN c77_loop tameS]. split; [|auto]. split; cbn [h_i h_init h_c h_u h_body]; auto.
    + intros x Hx Q. cbn in Hx, Q. intuition congruence.
    + intros _. apply step1.
    + intros N cl lit [= <-] [<-|[]] [<-|[]] _. split; auto.
    + intros s v _ _ _ _. split; intros e He; destruct He.
  - intros x a Ha. discriminate.
  - intros x a Ha. discriminate.
  - intros ctx b s1 pre op post s2 RC E2 X. inversion RC as [| | | |? ? ? ? ? ? ? ? ? ? ? Ei RL]; subst.
    destruct (loop1_reaches _ (c77_h (ETrunc c77_e)) (c77_body (ETrunc c77_e)) _ _ _ _ eq_refl RL) as [-> Q]. injection Q as ->. split; [exact c77_plain|].
    repeat constructor.
Qed.

(** ** Bounds that only hold under a condition (C39): with an array A of 4 elements,
      for (i = 2^32 + 1; i < 2^32 + 2; i++) { if (i < 4) A[i] = 1; B[trunc_i32(i)] = 1 }
    writes B[1]; the access to A is taken to bound i by 3, and the changed program writes
    B[2^32 + 1]. *)
Definition c77_set (x : string) (e : expr) : node := NBlock [{| o_code := 0%nat; o_ins := [OConst 1]; o_out := x; o_sub := [e] |}].
Definition c77_guard (e : expr) : node := NLoop KFor "i" (EInt 4294967297) (CLt (ESym "i") (EInt 4294967298)) (EAdd [EInt 1; ESym "i"])
  (SCons (NIf (BCons (CLt (ESym "i") (EInt 4)) (SCons (c77_set "A" (ESym "i")) [] SNil) BNil)) [] (SCons (c77_set "B" e) [] SNil)).
Definition c77_mems (e : expr) : list memlet := [{| m_data := "A"; m_subset := [ESym "i"]; m_dims := [Some (EInt 4)] |}; {| m_data := "B"; m_subset := [e]; m_dims := [None] |}].
Lemma c77_guard_run e z : forall st, eval (env_of (wr st "i" [] 4294967297)) e = Some z ->
  run c77_I (c77_guard e) st ONorm (wr (wr (wr st "i" [] 4294967297) "B" [z] 1) "i" [] 4294967298).
Proof.
  intros st E. econstructor; [reflexivity|].
  apply R_lnext with (o1 := ONorm) (st1 := wr (wr st "i" [] 4294967297) "B" [z] 1) (v := 4294967298); [reflexivity| |left; reflexivity|reflexivity|apply R_lend; reflexivity].
  eapply R_cons; [apply R_if, R_bfalse; [reflexivity|apply R_bnil]|reflexivity|]. eapply R_cons; [|reflexivity|apply R_nil].
  constructor. unfold exec_block, exec_op. cbn [o_ins o_sub o_out o_code reads_in read_in evals]. rewrite E. reflexivity.
Qed.
Theorem C77_guarded_refuted :
  minimize (assums_at (const_syms (fun _ => true)) (inv_of (c77_mems (ETrunc (ESym "i")))) no_entry no_entry) (c77_guard (ETrunc (ESym "i"))) = c77_guard (ESym "i") /\
  exists st a b, run c77_I (c77_guard (ETrunc (ESym "i"))) st ONorm a /\ run c77_I (c77_guard (ESym "i")) st ONorm b /\ a "B" [1] = 1 /\ b "B" [1] = 0.
Proof.
  split; [vm_compute; reflexivity|]. exists (fun _ _ => 0). do 2 eexists. split; [apply c77_guard_run with (z := 1); reflexivity|].
  split; [apply c77_guard_run with (z := 4294967297); reflexivity|]. split; reflexivity.
Qed.

(** Properties of the transformations that reorder iterations (C17, ...).

    Specification side: [run] (IR.v) is the execution of a program; [runsT]
    (Trace.v) is the same execution with the log of the cells it reads and writes
    (trace_run, run_trace: the log neither adds nor removes executions);
    [no_conflict], [private] (Reorder.v) compare two logs; [trip] (LoopIter.v) is
    the list of values a loop variable goes through. *)
From Coq Require Import Permutation.
From Verif Require Import Sym SymFacts SymFuns IR IRFacts IRRefine PassCFG PassInline PassCFGProofs2 PassCFGProps LoopTile LoopIter LoopProps Trace Reorder Interchange.
Local Open Scope string_scope.
Local Open Scope Z_scope.

(* ======================= C17 ======================= *)
Definition nest_vars (n : node) : list string :=
  match n with NLoop _ i _ _ _ (SCons (NLoop _ j _ _ _ _) _ _) => [i; j] | _ => [] end.
(** Everything but the two loop variables ends up the same, for whatever nest
    the transformation accepts. *)
Definition C17_full : Prop := forall n n', interchange n = Some n' ->
  preserved_except (fun x => In x (nest_vars n)) (one n) (one n').

(** What the acceptance test does not look at in the headers: the outer loop's own header does not use the
    inner variable, its start not the variable itself; the body writes no symbol of the headers.  (That the
    inner header does not use the outer variable is tested.) *)
Definition outer_header_ok (i j : string) (init : expr) (c : cond) (u : expr) (init2 : expr) (c2 : cond) (u2 : expr) (body : seq) : Prop :=
  i <> j /\ ~ In i (atoms init) /\ ~ In j (atoms init2 ++ atoms init ++ catoms c ++ atoms u) /\
  forall x, In x (i :: j :: atoms init ++ catoms c ++ atoms u ++ atoms init2 ++ catoms c2 ++ atoms u2) -> ~ In x (swrites body).
(** The nest's outer iterations are independent (which a Map claims), up to the
    cells [P] every instance defines before use, for example temporaries. Missing
    from the acceptance test: that independence if only the inner loop is a Map,
    and the conditions on the headers, break and return. *)
Theorem C17_interchange_partial : forall I k k2 i j init c u init2 c2 u2 body (P : string -> list Z -> bool) n' st o st',
  interchange (NLoop k i init c u (one (NLoop k2 j init2 c2 u2 body))) = Some n' ->
  outer_header_ok i j init c u init2 c2 u2 body -> sbrk body = false -> sret body = false ->
  P i [] = true -> P j [] = true ->
  run I (NLoop k i init c u (one (NLoop k2 j init2 c2 u2 body))) st o st' ->
  (forall vi, eval (env_of st) init = Some vi -> cev (upd (env_of st) i vi) c = Some false ->
     exists vj ws ej, eval (env_of st) init2 = Some vj /\ trip (env_of st) j c2 u2 vj ws ej) ->
  (forall vi vs ei vj ws ej its m,
     eval (env_of st) init = Some vi -> trip (env_of st) i c u vi vs ei ->
     eval (env_of st) init2 = Some vj -> trip (env_of st) j c2 u2 vj ws ej ->
     map fst its = list_prod vs ws -> iterL (inst I i j body) its st m -> outer_independent P its) ->
  exists st'', run I n' st o st'' /\ forall x l, P x l = false -> st'' x l = st' x l.
Proof.
  intros I k k2 i j init c u init2 c2 u2 body P n' st o st' E (N & Hi & Hj & W). intros. eapply interchange_sound; eauto.
  split; [exact N|]. split; [|split; [exact Hj|exact W]]. cbn [interchange one] in E.
  destruct (uses init2 i) eqn:U1; [discriminate|]. destruct (cuses c2 i) eqn:U2; [discriminate|]. destruct (uses u2 i) eqn:U3; [discriminate|].
  intros H'. apply in_app_or in H'. destruct H' as [H'|H']; [auto|]. apply in_app_or in H'. destruct H' as [H'|H']; [apply uses_atoms in H'; congruence|].
  apply in_app_or in H'. destruct H' as [H'|H']; [apply cuses_catoms in H'|apply uses_atoms in H']; congruence.
Qed.
(** Only perfect nests with at least one Map, and with an inner header independent of the outer variable,
    are accepted. *)
Theorem C17_accepted : forall n n', interchange n = Some n' -> exists k k2 i j init c u init2 c2 u2 body,
  n = NLoop k i init c u (one (NLoop k2 j init2 c2 u2 body)) /\ (k = KMap \/ k2 = KMap) /\
  ~ In i (atoms init2) /\ ~ In i (catoms c2) /\ ~ In i (atoms u2) /\
  n' = NLoop k2 j init2 c2 u2 (one (NLoop k i init c u body)).
Proof.
  intros n n' E. destruct n as [| | | |k i init c u [|[| | | |k2 j init2 c2 u2 body| | |] [|] [|]]| | |]; try discriminate. exists k, k2, i, j, init, c, u, init2, c2, u2, body.
  cbn [interchange] in E. destruct (uses init2 i) eqn:U1; [discriminate|]. destruct (cuses c2 i) eqn:U2; [discriminate|]. destruct (uses u2 i) eqn:U3; [discriminate|].
  split; [reflexivity|]. split; [destruct k, k2; auto; discriminate|]. split; [intros H; apply uses_atoms in H; congruence|]. split; [intros H; apply cuses_catoms in H; congruence|].
  split; [intros H; apply uses_atoms in H; congruence|]. cbn [orb] in E. unfold one; destruct k, k2; congruence.
Qed.

(** Inner loop a correct Map, outer loop sequential: A[t][i] = A[t-1][i+1]. *)
Definition c17_op (sub1 sub2 : list expr) : seq := one (NBlock [{| o_code := 0; o_ins := [ORead "A" sub1]; o_out := "A"; o_sub := sub2 |}]).
Definition c17_inner : node :=
  NLoop KFor "t" (EInt 1) (CLt (ESym "t") (EInt 4)) (nxt "t")
    (one (NLoop KMap "i" (EInt 0) (CLt (ESym "i") (EInt 4)) (nxt "i")
       (c17_op [EAdd [EInt (-1); ESym "t"]; EAdd [EInt 1; ESym "i"]] [ESym "t"; ESym "i"]))).
Definition c17_st : store := fun x l => match l with [a; b] => if String.eqb x "A" then a * 100 + b else 0 | _ => 0 end.
Theorem C17_inner_map_refuted : ~ C17_full.
Proof.
  intros F. destruct (interchange c17_inner) as [n'|] eqn:E; [|vm_compute in E; discriminate].
  specialize (F _ _ E). revert F. vm_compute in E. injection E as <-.
  refx 200%nat c17_st "A" ([3; 0] : list Z); [vm_compute; reflexivity|].
  simpl. intuition discriminate.
Qed.
(** An outer bound that uses the inner variable: i < j. *)
Definition c17_hdr : node :=
  NLoop KMap "i" (EInt 0) (CLt (ESym "i") (ESym "j")) (nxt "i")
    (one (NLoop KMap "j" (EInt 0) (CLt (ESym "j") (EInt 4)) (nxt "j") (one (NBlock [{| o_code := 0; o_ins := [OConst 7]; o_out := "A"; o_sub := [ESym "i"; ESym "j"] |}])))).
Theorem C17_outer_bound_refuted : exists n', interchange c17_hdr = Some n' /\
  ~ preserved_except (fun x => x = "i" \/ x = "j") (one c17_hdr) (one n').
Proof.
  destruct (interchange c17_hdr) as [n'|] eqn:E; [|vm_compute in E; discriminate]. exists n'. split; auto.
  vm_compute in E. injection E as <-.
  refx 200%nat (wr st0 "j" [] 2) "A" ([0; 0] : list Z); [vm_compute; reflexivity|]. intuition discriminate.
Qed.
(** After a nest whose inner loop runs zero times the outer variable has another value. *)
Definition c17_zero : node :=
  NLoop KMap "i" (EInt 0) (CLt (ESym "i") (EInt 3)) (nxt "i")
    (one (NLoop KMap "j" (EInt 0) (CLt (ESym "j") (EInt 0)) (nxt "j") (one (acc "A" "i")))).
Theorem C17_loop_variable_refuted : exists n', interchange c17_zero = Some n' /\
  ~ preserved_except (eq "j") (one c17_zero) (one n').
Proof.
  destruct (interchange c17_zero) as [n'|] eqn:E; [|vm_compute in E; discriminate]. exists n'. split; auto.
  vm_compute in E. injection E as <-.
  refx 200%nat st0 "i" ([] : list Z); [vm_compute; reflexivity|]. discriminate.
Qed.

(** t = B[j]; A[i][j] = t for i < n, j < m: outer iterations are independent with
    the temporary [t] private. *)
Definition c17_body : seq := one (NBlock [
  {| o_code := 0; o_ins := [ORead "B" [ESym "j"]]; o_out := "t"; o_sub := [] |};
  {| o_code := 0; o_ins := [ORead "t" []]; o_out := "A"; o_sub := [ESym "i"; ESym "j"] |}]).
Definition c17_ok : node :=
  NLoop KMap "i" (EInt 0) (CLt (ESym "i") (ESym "n")) (nxt "i")
    (one (NLoop KFor "j" (EInt 0) (CLt (ESym "j") (ESym "m")) (nxt "j") c17_body)).
Definition c17_P : pcell := fun x _ => String.eqb x "i" || String.eqb x "j" || String.eqb x "t".
Lemma c17_log v w T a b : inst I0 "i" "j" c17_body (v, w, T) a b ->
  T = [Ev true "i" [] []; Ev true "j" [] []; Ev false "j" [] []; Ev false "B" [ESym "j"] [w]; Ev true "t" [] []; Ev false "t" [] []; Ev false "i" [] []; Ev false "j" [] []; Ev true "A" [ESym "i"; ESym "j"] [v; w]].
Proof.
  intros (T0 & o & E & Ho & R). simpl in E, R. rewrite E. f_equal. f_equal. clear E T.
  unfold c17_body, one in R. inversion R; subst.
  - match goal with H : runsT _ SNil _ _ _ _ |- _ => inversion H; subst end.
    match goal with H : runT _ _ _ _ _ _ |- _ => inversion H; subst end. reflexivity.
  - match goal with H : runT _ _ _ _ _ _ |- _ => inversion H; subst end. congruence.
Qed.
Example C17_nonvacuous : let st := wr (wr st0 "n" [] 2) "m" [] 3 in
  (exists n', interchange c17_ok = Some n') /\
  outer_header_ok "i" "j" (EInt 0) (CLt (ESym "i") (ESym "n")) (nxt "i") (EInt 0) (CLt (ESym "j") (ESym "m")) (nxt "j") c17_body /\
  (exists st', run I0 c17_ok st ONorm st' /\ st' "i" [] = 2 /\ st' "j" [] = 3) /\
  (forall its m, iterL (inst I0 "i" "j" c17_body) its st m -> outer_independent c17_P its).
Proof.
  cbv zeta. split; [eexists; reflexivity|]. split.
  { repeat split; try discriminate; simpl; try (intuition discriminate). intros x Hx H. intuition (subst; discriminate). }
  split.
  { destruct (xnode I0 200 c17_ok (wr (wr st0 "n" [] 2) "m" [] 3)) as [[o s]|] eqn:E; [|vm_compute in E; discriminate].
    exists s. assert (o = ONorm) as -> by (vm_compute in E; congruence). split; [eapply xnode_run; eauto|]. vm_compute in E. injection E as <-. split; reflexivity. }
  intros its m H.
  assert (F: Forall (fun it : Z * Z * trace => snd it = [Ev true "i" [] []; Ev true "j" [] []; Ev false "j" [] []; Ev false "B" [ESym "j"] [snd (fst it)]; Ev true "t" [] []; Ev false "t" [] []; Ev false "i" [] []; Ev false "j" [] []; Ev true "A" [ESym "i"; ESym "j"] [fst (fst it); snd (fst it)]]) its).
  { revert H. generalize (wr (wr st0 "n" [] 2) "m" [] 3) as a. induction its as [|[[v w] T] its IH]; intros a H; constructor; destruct H as (q & Hq & H); eauto.
    apply c17_log in Hq. exact Hq. }
  rewrite Forall_forall in F. split.
  - intros it Hit. rewrite (F it Hit). intros x l Px. unfold c17_P in Px. cbn [exposed].
    destruct (String.eqb_spec x "i") as [->|]; [|destruct (String.eqb_spec x "j") as [->|]; [|destruct (String.eqb_spec x "t") as [->|]; [|discriminate]]]; intuition congruence.
  - intros it it2 H1 H2 N. rewrite (F it H1), (F it2 H2). intros x l Px. unfold c17_P in Px.
    destruct (String.eqb_spec x "i") as [->|]; [discriminate|]. destruct (String.eqb_spec x "j") as [->|]; [discriminate|]. destruct (String.eqb_spec x "t") as [->|]; [discriminate|].
    cbn [exposed]. rewrite !written_cons. pose proof (written_nil x l). intuition congruence.
Qed.

Print Assumptions C17_interchange_partial.
Print Assumptions C17_inner_map_refuted.

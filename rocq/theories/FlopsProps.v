(** * C79: the number of floating-point operations of a loop *)
From Coq Require Import String List ZArith Bool Lia.
From Verif Require Import Sym SymFacts SymFuns IR IRFacts Assum Flops.
Import ListNotations.
Open Scope string_scope.
Open Scope list_scope.
Open Scope Z_scope.

(** Counting changes nothing: the executions with a count are those of IR.v. *)
Theorem C79_counted w I n st o st' : run I n st o st' <-> exists z, costN w I n st o st' z.
Proof. split; [intros R; exact (proj1 (run_cost w I) _ _ _ _ R)|intros (z & K); exact (proj1 (cost_run w I) _ _ _ _ _ K)]. Qed.

(** The expression of a loop, evaluated where the loop starts, is the number of operations
    every execution of the loop performs: when nothing leaves the loop early, each loop in it
    runs from its start to one bound by steps of one, at least to just before the start, and
    the loop writes no name those bounds depend on ([plainN]). *)
Theorem C79_precise_loop_partial w I T ctx n st e : flop_loop w T ctx n = Some e -> plainN (nwrites n) st n ->
  exists k, eval (env_of st) e = Some k /\ forall o st' z, costN w I n st o st' z -> o = ONorm /\ z = k.
Proof.
  intros H P. destruct (proj1 (exact_mut w I T (nwrites n) st) n _ _ _ _ P (fun x Hx => Hx) H) as (k & E & K). exists k. split; [exact E|].
  intros o st' z C. apply (K st o st' z); [intros x _; reflexivity|exact C].
Qed.
(** The same for a whole program. *)
Theorem C79_precise_root_partial w I T s st e : flop_root w T s = Some e -> plainS (swrites s) st s ->
  exists k, eval (env_of st) e = Some k /\ forall o st' z, costS w I s st o st' z -> o = ONorm /\ z = k.
Proof.
  intros H P. destruct (proj1 (proj2 (exact_mut w I T (swrites s) st)) s [] (sreads s) (swrites s) (EInt 0) 0 e P (fun x Hx => Hx) eq_refl H) as (k & E & K). exists k. split; [exact E|].
  intros o st' z C. apply (K st o st' z); [intros x _; reflexivity|exact C].
Qed.

(** ** What the conditions are for *)
Definition c79_I : nat -> list Z -> option Z := fun k l => match k, l with 0%nat, [x] => Some x | 1%nat, [x; y] => Some (x + y) | 2%nat, [x; y; z] => Some (x * y + z) | _, _ => None end.
(** codes 1: an addition, 2: a fused multiply-add *)
Definition c79_w (o : op) : Z := match o_code o with 1%nat => 1 | 2%nat => 2 | _ => 0 end.
Definition c79_T : list string -> assumptions := fun _ _ => None.
Definition c79_add (x : string) (l : list expr) : op := Build_op 1 [ORead x l; OConst 1] x l.
Definition c79_st (m n : Z) : store := fun x j => match j with [] => if String.eqb x "m" then m else if String.eqb x "n" then n else 0 | _ => 0 end.
Definition upto (i : string) (n : expr) (s : seq) : node := NLoop KFor i (EInt 0) (CLt (ESym i) n) (EAdd [ESym i; EInt 1]) s.
Ltac count := first
  [ eapply K_nil | eapply K_break
  | eapply K_block; cbn; reflexivity
  | eapply K_cons; [count | cbn; reflexivity | count]
  | eapply K_exit; [count | discriminate]
  | eapply K_lend; vm_compute; reflexivity
  | eapply K_lbreak; [vm_compute; reflexivity | count]
  | eapply K_lnext with (o1 := ONorm); [vm_compute; reflexivity | count | left; reflexivity | vm_compute; reflexivity | count]
  | eapply K_loop; [vm_compute; reflexivity | count] ].

(** A break ends the loop after one operation; the count says n, and precise. *)
Definition c79_break : node := upto "i" (ESym "n") (SCons (NBlock [c79_add "A" [ESym "i"]]) [] (SCons NBreak [] SNil)).
Theorem C79_break_refuted : exists e st' z, flop_loop c79_w c79_T [] c79_break = Some e /\ eval (env_of (c79_st 0 4)) e = Some 4 /\
  costN c79_w c79_I c79_break (c79_st 0 4) ONorm st' z /\ z = 1.
Proof. do 3 eexists. split; [vm_compute; reflexivity|]. split; [vm_compute; reflexivity|]. split; [count|vm_compute; reflexivity]. Qed.
(** A loop that does not start: the count is negative. *)
Definition c79_plain : node := upto "i" (ESym "n") (SCons (NBlock [c79_add "A" [ESym "i"]]) [] SNil).
Theorem C79_empty_refuted : exists e st' z, flop_loop c79_w c79_T [] c79_plain = Some e /\ eval (env_of (c79_st 0 (-3))) e = Some (-3) /\
  costN c79_w c79_I c79_plain (c79_st 0 (-3)) ONorm st' z /\ z = 0.
Proof. do 3 eexists. split; [vm_compute; reflexivity|]. split; [vm_compute; reflexivity|]. split; [count|vm_compute; reflexivity]. Qed.
(** The bound of the innermost loop is compared with its own scope only: an outer loop
    changes it between the iterations. *)
Definition c79_nest : node :=
  upto "a" (EInt 2) (SCons (upto "b" (EInt 1) (SCons (upto "c" (ESym "m") (SCons (NBlock [c79_add "A" [ESym "c"]]) [] SNil)) [] SNil)) [("m", EInt 0)] SNil).
Theorem C79_outer_scope_refuted : exists e st' z, flop_loop c79_w c79_T [] c79_nest = Some e /\ eval (env_of (c79_st 2 0)) e = Some 4 /\
  costN c79_w c79_I c79_nest (c79_st 2 0) ONorm st' z /\ z = 2.
Proof. do 3 eexists. split; [vm_compute; reflexivity|]. split; [vm_compute; reflexivity|]. split; [count|vm_compute; reflexivity]. Qed.
(** A second condition of the loop is dropped from its tight bound. *)
Definition c79_and : node := NLoop KFor "i" (EInt 0) (CAnd [CLt (ESym "i") (ESym "n"); CLt (ESym "j") (ESym "m")]) (EAdd [ESym "i"; EInt 1]) (SCons (NBlock [c79_add "A" [ESym "i"]]) [] SNil).
Theorem C79_condition_refuted : exists e st' z, flop_loop c79_w c79_T [] c79_and = Some e /\ eval (env_of (c79_st 0 4)) e = Some 4 /\
  costN c79_w c79_I c79_and (c79_st 0 4) ONorm st' z /\ z = 0.
Proof. do 3 eexists. split; [vm_compute; reflexivity|]. split; [vm_compute; reflexivity|]. split; [count|vm_compute; reflexivity]. Qed.

(** ** The hypotheses can be met *)
Definition c79_good : node :=
  upto "i" (ESym "n") (SCons (upto "j" (ESym "m") (SCons (NBlock [Build_op 2 [ORead "A" [ESym "i"]; ORead "B" [ESym "j"]; ORead "C" [ESym "i"]] "C" [ESym "i"]]) [] SNil)) [] SNil).
Example C79_hypotheses : exists e, flop_loop c79_w c79_T [] c79_good = Some e /\ plainN (nwrites c79_good) (c79_st 3 2) c79_good /\
  eval (env_of (c79_st 3 2)) e = Some 12 /\ exists st', costN c79_w c79_I c79_good (c79_st 3 2) ONorm st' 12.
Proof.
  assert (U : forall i s v, eval s (EAdd [ESym i; EInt 1]) = Some v -> v = s i + 1).
  { intros i s v E. apply TypesProofs.eval_ev in E. cbn [ev map fold_right xadd] in E. injection E as <-. lia. }
  eexists. split; [vm_compute; reflexivity|]. split; [|split; [vm_compute; reflexivity|]].
  - cbn [c79_good upto plainN plainS]. split.
    { exists (ESym "n"), 0, 1. split; [left; split; reflexivity|]. split; [reflexivity|]. split; [lia|]. intros x [<-|[]] [K|[K|[K|[]]]]; discriminate. }
    split; [apply U|]. split; [intros [K|[K|[]]]; discriminate|]. split; [left; reflexivity|]. split; [|exact Logic.I]. split.
    { exists (ESym "m"), 0, 2. split; [left; split; reflexivity|]. split; [reflexivity|]. split; [lia|]. intros x [<-|[]] [K|[K|[K|[]]]]; discriminate. }
    split; [apply U|]. split; [intros [K|[]]; discriminate|]. split; [right; left; reflexivity|]. split; [exact Logic.I|exact Logic.I].
  - assert (X : exists st' z, costN c79_w c79_I c79_good (c79_st 3 2) ONorm st' z /\ z = 12) by (do 2 eexists; split; [count|vm_compute; reflexivity]).
    destruct X as (st' & z & K & ->). exists st'. exact K.
Qed.

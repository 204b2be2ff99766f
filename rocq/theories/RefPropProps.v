(** * C72, C73: pointer assignments are propagated into their users, unused ones removed *)
From Verif Require Import Sym SymFacts SymFuns SymProofs1 Alloc AllocProofs AllocSim AllocProps RefProp.
Open Scope string_scope.
Open Scope list_scope.
Open Scope Z_scope.

(** [with_root F l]: the function with another body. *)
Definition with_root (F : func) (l : list stm) : func := Fun (f_args F) (f_types F) l.

(** ** C72
    Missing in the code, and needed: the two containers differ; the containers are not
    allocated and the scalars of the offset not written between the assignment and the
    user. A rewriting with these criteria is one the pass may do, and every call of the
    function has the same result, the same memory, scalars and pointers. *)
Theorem C72_propagation_partial F l' : propagates_checked (f_root F) l' ->
  propagates (f_root F) l' /\ forall m o mf, call F m o mf <-> call (with_root F l') m o mf.
Proof.
  intros P. split; [apply checked_propagates, P|]. intros m o mf.
  split; intros C; inversion C as [m1 m2 m3 A B D]; subst; econstructor; try eassumption; apply (propagates_sound _ _ P); exact B.
Qed.
(** Any number of applications. *)
Inductive many (R : list stm -> list stm -> Prop) : list stm -> list stm -> Prop :=
| Many_none l : many R l l
| Many_more a b c : R a b -> many R b c -> many R a c.
Theorem C72_repeated_partial F l' : many propagates_checked (f_root F) l' -> forall m o mf, call F m o mf <-> call (with_root F l') m o mf.
Proof.
  destruct F as [a t l]. cbn [f_root]. intros M. induction M as [l|l1 l2 l3 P M IH]; intros m o mf; [reflexivity|].
  rewrite (proj2 (C72_propagation_partial (Fun a t l1) l2 P) m o mf). apply (IH m o mf).
Qed.

(** *** Refutations: rewritings the pass may do that change what the function returns. *)
Definition c72_env (y : string) : Z := 0.
(** one buffer "a" of the caller with cells 0, 10, 20, 30, and a pointer A to it *)
Definition c72_m : machine :=
  Mc c72_env (fun y => if String.eqb y "A" then Some (("a", 0%nat), 0) else None)
     (fun b => if ideqb ("a", 0%nat) b then Some (Buf Heap 4 (fun i => Some (10 * i))) else None) (fun y => if String.eqb "a" y then 1%nat else 0%nat).
Definition differs (l l' : list stm) (m : machine) : Prop :=
  propagates l l' /\ exists v v' m1 m1', runs l m (Ret v) m1 /\ runs l' m (Ret v') m1' /\ v <> v'.
Ltac fstep := first [apply F_nil | eapply F_cons; [first [apply F_use; first [apply W_load|apply W_store|apply W_view|apply W_free; reflexivity|apply W_alloc; reflexivity] | apply F_keep; reflexivity | apply F_return]|]].
Ltac keep := eapply F_cons; [first [apply F_keep; reflexivity|apply F_return]|].
Ltac use := eapply F_cons; [apply F_use; first [apply W_load|apply W_store|apply W_view|apply W_free; reflexivity|apply W_alloc; reflexivity]|].

(** p = A; p = p + 1; v = p[0]  becomes  v = p[1]: the assignment of p to itself is not
    between itself and the user. *)
Definition c72_self := [SView "p" "A" (EInt 0); SView "p" "p" (EInt 1); SLoad "v" "p" (EInt 0); SReturn (Some (ESym "v"))].
Theorem C72_self_assignment_refuted : exists l l' m, differs l l' m.
Proof.
  eexists c72_self, _, c72_m. split.
  - apply R_next. eapply (R_here _ _ "p" "p" (EInt 1)); [exact I|]. use. keep. apply F_nil.
  - eexists _, _, _, _. split; [|split].
    + repeat rstep.
    + repeat rstep.
    + vm_compute. discriminate.
Qed.
(** and the next run of the pass replaces the same user again, without end *)
Theorem C72_self_assignment_repeats_refuted : forall n, propagates
  [SView "p" "p" (EInt 1); SLoad "v" "p" (EInt n)] [SView "p" "p" (EInt 1); SLoad "v" "p" (EInt (1 + n))].
Proof.
  intros n. eapply R_here; [exact I|]. eapply F_cons; [|apply F_nil]. apply F_use.
  replace (EInt (1 + n)) with (moved (EInt 1) (EInt n)); [apply W_load|].
  unfold moved, sadd. cbn. destruct n as [|[p|p|]|[p|p|]]; reflexivity.
Qed.
(** p = A + i; i = i + 1; v = p[0]  becomes  v = A[i]: the new index is read too late. *)
Definition c72_index := [SView "p" "A" (ESym "i"); SSet "i" (EAdd [ESym "i"; EInt 1]); SLoad "v" "p" (EInt 0); SReturn (Some (ESym "v"))].
Theorem C72_index_moved_refuted : exists l l' m, differs l l' m.
Proof.
  eexists c72_index, _, c72_m. split.
  - eapply R_here; [exact I|]. keep. use. keep. apply F_nil.
  - eexists _, _, _, _. split; [|split].
    + repeat rstep.
    + repeat rstep.
    + vm_compute. discriminate.
Qed.
(** p = A; A = malloc(1); A[0] = 5; v = p[0]  becomes  v = A[0]: an allocation is not a
    move of A. *)
Definition c72_realloc := [SView "p" "A" (EInt 0); SAlloc "A" Heap (EInt 1); SStore "A" (EInt 0) (EInt 5); SLoad "v" "p" (EInt 0); SReturn (Some (ESym "v"))].
Theorem C72_viewed_allocated_refuted : exists l l' m, differs l l' m.
Proof.
  eexists c72_realloc, _, c72_m. split.
  - eapply R_here; [exact I|]. keep. keep. use. keep. apply F_nil.
  - eexists _, _, _, _. split; [|split].
    + repeat rstep.
    + repeat rstep.
    + vm_compute. discriminate.
Qed.
(** p = A + 1; p = malloc(1); p[0] = 5; v = p[0]; the access is sent to A[1] although p
    has its own memory. *)
Definition c72_fresh := [SView "p" "A" (EInt 1); SAlloc "p" Heap (EInt 1); SStore "p" (EInt 0) (EInt 5); SLoad "v" "A" (EInt 1); SReturn (Some (ESym "v"))].
Theorem C72_reference_allocated_refuted : exists l l' m, differs l l' m.
Proof.
  eexists c72_fresh, _, c72_m. split.
  - eapply R_here; [exact I|]. keep. use. keep. keep. apply F_nil.
  - eexists _, _, _, _. split; [|split].
    + repeat rstep.
    + repeat rstep.
    + vm_compute. discriminate.
Qed.
(** p = A; p = malloc(1); p[0] = 5; v = A[0]: the allocation itself is renamed, and A
    now points to the new memory. *)
Definition c72_rename := [SView "p" "A" (EInt 0); SAlloc "p" Heap (EInt 1); SStore "p" (EInt 0) (EInt 5); SLoad "v" "A" (EInt 0); SReturn (Some (ESym "v"))].
Theorem C72_allocation_renamed_refuted : exists l l' m, differs l l' m /\
  nth_error l 1 = Some (SAlloc "p" Heap (EInt 1)) /\ nth_error l' 1 = Some (SAlloc "A" Heap (EInt 1)).
Proof.
  eexists c72_rename, _, c72_m. split; [split|].
  - eapply R_here; [exact I|]. use. use. keep. keep. apply F_nil.
  - eexists _, _, _, _. split; [|split].
    + repeat rstep.
    + repeat rstep.
    + vm_compute. discriminate.
  - split; reflexivity.
Qed.

(** *** The hypotheses are met: p = A + i; if (c == 0) p[1] = 7 else { p = A; return };
    while (j < 2) { v = p[j]; j = j + 1 }; q = p + 2; i = 0; w = q[1]; the first five
    users of p become accesses of A, w = q[1] stays. *)
Definition c72_src : list stm :=
  [SView "p" "A" (ESym "i");
   SIf (CEq (ESym "c") (EInt 0)) [SStore "p" (EInt 1) (EInt 7)] [SView "p" "A" (EInt 0); SReturn None];
   SWhile (CLt (ESym "j") (EInt 2)) [SLoad "v" "p" (ESym "j"); SSet "j" (EAdd [ESym "j"; EInt 1])];
   SView "q" "p" (EInt 2); SSet "i" (EInt 0); SLoad "w" "q" (EInt 0); SReturn (Some (EAdd [ESym "v"; ESym "w"]))].
Definition c72_dst : list stm :=
  [SView "p" "A" (ESym "i");
   SIf (CEq (ESym "c") (EInt 0)) [SStore "A" (moved (ESym "i") (EInt 1)) (EInt 7)] [SView "p" "A" (EInt 0); SReturn None];
   SWhile (CLt (ESym "j") (EInt 2)) [SLoad "v" "A" (moved (ESym "i") (ESym "j")); SSet "j" (EAdd [ESym "j"; EInt 1])];
   SView "q" "A" (moved (ESym "i") (EInt 2)); SSet "i" (EInt 0); SLoad "w" "q" (EInt 0); SReturn (Some (EAdd [ESym "v"; ESym "w"]))].
Theorem C72_hypotheses : propagates_checked c72_src c72_dst /\ c72_src <> c72_dst /\
  (exists m1, runs c72_src c72_m (Ret (Some 27)) m1) /\ (exists m1, runs c72_dst c72_m (Ret (Some 27)) m1).
Proof.
  split; [|split; [discriminate|]].
  - eapply R_here; [discriminate|].
    eapply F_cons; [eapply F_if; [use; apply F_nil|keep; keep; apply F_nil]|].
    eapply F_cons; [eapply (F_while _ _ _ _ true true); [intros _; split; reflexivity|use; keep; apply F_nil]|].
    use. keep. keep. keep. apply F_nil.
  - split; eexists.
    + rstep. eapply X_cons; [eapply X_if; [reflexivity|repeat rstep]|].
      eapply X_cons. { eapply X_again; [reflexivity|repeat rstep|]. eapply X_again; [reflexivity|repeat rstep|]. apply X_stop. reflexivity. }
      repeat rstep.
    + rstep. eapply X_cons; [eapply X_if; [reflexivity|repeat rstep]|].
      eapply X_cons. { eapply X_again; [reflexivity|repeat rstep|]. eapply X_again; [reflexivity|repeat rstep|]. apply X_stop. reflexivity. }
      repeat rstep.
Qed.

(** ** C73
    Removing a pointer container that is only assigned: every call of the function
    returns what it returned, with the same memory and scalars and all other pointers. *)
Theorem C73_dead_reference F y m o mf : dead_ref F y = true -> call F m o mf ->
  exists mf', call (drop_ref F y) m o mf' /\ data mf' = data mf /\ (forall b, heap mf' b = heap mf b) /\
    (forall x, x <> y -> ptr mf' x = ptr mf x) /\ (forall x, In x (f_args F) -> ptr mf' x = ptr mf x).
Proof.
  intros D C. destruct (drop_ref_sim y F m o mf D C) as (mf' & C' & L). exists mf'. split; [exact C'|].
  assert (P : forall x, x <> y -> ptr mf' x = ptr mf x) by (intros x N; symmetry; apply (rl_ptr _ _ _ _ L); unfold only; auto).
  split; [symmetry; exact (rl_data _ _ _ _ L)|]. split; [intros b; symmetry; apply (rl_heap _ _ _ _ L); intros []|]. split; [exact P|].
  intros x Hx. apply P. intros ->. unfold dead_ref in D. rewrite !andb_true_iff in D. destruct D as [[D _] _]. apply negb_true_iff in D.
  rewrite <- not_true_iff_false in D. apply D. apply existsb_exists. exists y. split; [exact Hx|apply String.eqb_refl].
Qed.
(** No use of the container is left, and its type is gone. *)
Lemma erase_uses y : (forall s, needs y s = false -> existsb (uses y) (erase y s) = false).
Proof.
  fix IH 1. intros s.
  assert (Go : forall l, existsb (needs y) l = false -> existsb (uses y) (flat_map (erase y) l) = false).
  { fix Go 1. intros [|a l]; [reflexivity|]. cbn [existsb flat_map]. intros H. apply orb_false_elim in H as [H1 H2].
    rewrite existsb_app, (IH a H1), (Go l H2). reflexivity. }
  destruct s; cbn [needs erase]; intros H; try (cbn [existsb uses]; rewrite ?H; reflexivity).
  - destruct (String.eqb y y0) eqn:E; [reflexivity|]. cbn [existsb uses]. rewrite E, H. reflexivity.
  - apply orb_false_elim in H as [H1 H2]. cbn [existsb uses]. rewrite (Go _ H1), (Go _ H2). reflexivity.
  - cbn [existsb uses]. rewrite (Go _ H). reflexivity.
Qed.
Theorem C73_removed F y : dead_ref F y = true ->
  existsb (uses y) (f_root (drop_ref F y)) = false /\ ~ In y (map fst (f_types (drop_ref F y))).
Proof.
  intros D. unfold dead_ref in D. rewrite !andb_true_iff in D. destruct D as [[_ D] _]. apply negb_true_iff in D. split.
  - cbn. revert D. induction (f_root F) as [|a l IH]; [reflexivity|]. cbn. intros H. apply orb_false_elim in H as [H1 H2].
    rewrite existsb_app, (erase_uses y a H1), (IH H2). reflexivity.
  - apply (kept_out y). reflexivity.
Qed.
(** After a propagation that replaced all users the container can be removed. *)
Definition c73_f : func := Fun ["A"; "i"] [("A", plain); ("p", plain)] [SView "p" "A" (ESym "i"); SLoad "v" "p" (EInt 2); SReturn (Some (ESym "v"))].
Theorem C73_hypotheses : exists l', propagates_checked (f_root c73_f) l' /\ dead_ref (with_root c73_f l') "p" = true /\
  dead_ref c73_f "p" = false /\ exists mf, call (drop_ref (with_root c73_f l') "p") c72_m (Ret (Some 20)) mf.
Proof.
  eexists. split; [|split; [|split]].
  - eapply R_here; [discriminate|]. use. keep. apply F_nil.
  - reflexivity.
  - reflexivity.
  - eexists. eapply Call; [cbn; repeat estep|cbn; repeat rstep|cbn; repeat qstep].
Qed.

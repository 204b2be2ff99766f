(** C71: letting the function allocate containers at its entry and release them at its
    exits (AllocationManagement) changes neither results nor memory. *)
From Verif Require Import Sym SymFacts Alloc AllocProofs AllocSim.
Open Scope string_scope.
Open Scope list_scope.
Open Scope Z_scope.

(** The caller sees the same scalars and the same live buffers with the same contents
    and sizes: nothing lost, nothing left behind, nothing released too early. *)
Definition same_effect (m m' : machine) : Prop := (forall y, data m y = data m' y) /\ (forall b, heap m b = heap m' b).
(** [x] is a pointer container of F, neither allocated nor released by the function
    prologue and epilogue so far. *)
Definition unmanaged (F : func) (x : string) : Prop :=
  NoDup (map fst (f_types F)) /\ exists t, In (x, t) (f_types F) /\ st_alloc t = false /\ st_free t = false.
(** Some child of [pre] can return from the function. *)
Definition returns (pre : list stm) : bool := existsb has_ret pre.
(** The size can be computed at entry and is not negative. *)
Definition size_at_entry (n : expr) (m : machine) : Prop := exists z, eval (data m) n = Some z /\ 0 <= z.

(** Moving an accepted allocation to the entry: every call keeps its result and its
    effect on memory. Conditions the pass does not check: the arguments in the size are
    not written before the allocation; if the function can return before it, the size
    is valid at entry and the memory is stack memory (see C71_leak_refuted). *)
Theorem C71_allocation_partial F pre x k n post m o mf :
  f_root F = pre ++ SAlloc x k n :: post -> can_alloc F pre (SAlloc x k n) = true -> unmanaged F x ->
  (forall y, In y (atoms n) -> existsb (sets y) pre = false) ->
  (returns pre = true -> k = Stack /\ size_at_entry n m) ->
  aged m -> call F m o mf ->
  exists mf', call (apply_alloc F pre (SAlloc x k n) post) m o mf' /\ same_effect mf mf'.
Proof.
  intros E Hc (ND & t & Ht & A & B) Hs Hr G C.
  destruct (alloc_sim F pre post x k n t E Hc ND Ht A B Hs m o mf G C) as (mf' & C' & D & H1 & H2).
  { intros K. apply (Hr K). }
  exists mf'. split; [exact C'|]. split; [intros y; rewrite D; reflexivity|].
  intros b. destruct (ideqb b (x, cnt m x)) eqn:Q.
  - apply ideqb_eq in Q. subst b. destruct H2 as [[H2 _]|(N & S & v & m1 & m2 & En & Ru)]; [symmetry; exact H2|].
    rewrite N. symmetry. apply S. apply Hr. exact (proj2 run_has_ret _ _ _ _ Ru v eq_refl).
  - symmetry. apply H1. intros K. subst b. rewrite ideqb_refl in Q. discriminate.
Qed.
(** Without the stack condition the only difference is the new buffer, left behind when
    the function returns before the allocation. *)
Theorem C71_allocation_otherwise F pre x k n post m o mf :
  f_root F = pre ++ SAlloc x k n :: post -> can_alloc F pre (SAlloc x k n) = true -> unmanaged F x ->
  (forall y, In y (atoms n) -> existsb (sets y) pre = false) ->
  (returns pre = true -> size_at_entry n m) ->
  aged m -> call F m o mf ->
  exists mf', call (apply_alloc F pre (SAlloc x k n) post) m o mf' /\
    (forall y, data mf y = data mf' y) /\ (forall b, b <> (x, cnt m x) -> heap mf b = heap mf' b).
Proof.
  intros E Hc (ND & t & Ht & A & B) Hs Hr G C.
  destruct (alloc_sim F pre post x k n t E Hc ND Ht A B Hs m o mf G C Hr) as (mf' & C' & D & H1 & H2).
  exists mf'. split; [exact C'|]. split; [intros y; rewrite D; reflexivity|]. intros b Hb. symmetry. apply H1. exact Hb.
Qed.
(** Moving an accepted release to the exits, when nothing returns before it. *)
Theorem C71_release_partial F pre x post m o mf t :
  f_root F = pre ++ SFree x :: post -> can_free pre (SFree x) post = true ->
  NoDup (map fst (f_types F)) -> In (x, t) (f_types F) -> st_free t = false -> (st_alloc t = true -> st_kind t = Heap) ->
  returns pre = false -> aged m -> call F m o mf ->
  exists mf', call (apply_free F pre (SFree x) post) m o mf' /\ same_effect mf mf'.
Proof.
  intros E Hc ND Ht A B Hr G C.
  destruct (free_sim F pre post x t E Hc ND Ht A B) with (m := m) (o := o) (mf := mf) as (mf' & C' & D & H1 & H2); auto.
  { intros K. unfold returns in Hr. rewrite K in Hr. discriminate. }
  exists mf'. split; [exact C'|]. split; [intros y; rewrite D; reflexivity|].
  intros b. destruct (ideqb b (x, cnt m x)) eqn:Q.
  - apply ideqb_eq in Q. subst b. destruct H2 as [[H2 _]|(N & v & m1 & m2 & En & Ru)]; [symmetry; exact H2|].
    unfold returns in Hr. rewrite (proj2 run_has_ret _ _ _ _ Ru v eq_refl) in Hr. discriminate.
  - symmetry. apply H1. intros K. subst b. rewrite ideqb_refl in Q. discriminate.
Qed.

Lemma rets_after_app x a b : rets_after x (a ++ b) = rets_after x a || (existsb (uses x) a && existsb has_ret b) || rets_after x b.
Proof.
  induction a as [|s a IH]; simpl; [reflexivity|]. rewrite IH, existsb_app.
  destruct (ret_after x s), (uses x s), (existsb has_ret a), (existsb has_ret b), (rets_after x a), (existsb (uses x) a), (rets_after x b); reflexivity.
Qed.
(** Allocation and release of one container, both accepted in the given program: no
    condition on early returns but that the size is valid at entry. *)
Theorem C71_allocation_and_release_partial F pre x n mid post m o mf :
  f_root F = pre ++ SAlloc x Heap n :: mid ++ SFree x :: post ->
  can_alloc F pre (SAlloc x Heap n) = true -> can_free (pre ++ SAlloc x Heap n :: mid) (SFree x) post = true -> unmanaged F x ->
  (forall y, In y (atoms n) -> existsb (sets y) pre = false) ->
  (returns pre = true -> size_at_entry n m) ->
  aged m -> call F m o mf ->
  let F1 := apply_alloc F pre (SAlloc x Heap n) (mid ++ SFree x :: post) in
  exists mf', call (apply_free F1 (pre ++ mid) (SFree x) post) m o mf' /\ same_effect mf mf'.
Proof.
  intros E Hc Hf (ND & t & Ht & A & B) Hs Hr G C F1.
  destruct (alloc_sim F pre (mid ++ SFree x :: post) x Heap n t E Hc ND Ht A B Hs m o mf G C Hr) as (m1 & C1 & D1 & H1 & H2).
  destruct (types_split _ _ _ ND Ht) as (l1 & l2 & El & N1 & N2).
  assert (Ety : f_types F1 = l1 ++ (x, Sto Heap (Some n) true (st_free t)) :: l2).
  { unfold F1, apply_alloc. cbn [f_types]. rewrite El. rewrite set_type_split; auto. }
  unfold can_free in Hf. apply andb_true_iff in Hf as [U1 U2]. apply negb_true_iff in U2.
  rewrite rets_after_app in U2. apply orb_false_elim in U2 as [U2 U3]. apply orb_false_elim in U2 as [U4 U5].
  simpl in U3. rewrite String.eqb_refl in U3. simpl in U3. apply orb_false_elim in U3 as [U6 U7].
  assert (Hf1 : can_free (pre ++ mid) (SFree x) post = true).
  { unfold can_free. rewrite U1. simpl. rewrite rets_after_app, U4, U7. rewrite U6, andb_false_r. reflexivity. }
  assert (Er : f_root F1 = (pre ++ mid) ++ SFree x :: post) by (unfold F1, apply_alloc; cbn [f_root]; rewrite app_assoc; reflexivity).
  assert (ND1 : NoDup (map fst (f_types F1))).
  { rewrite Ety. rewrite El in ND. rewrite map_app in *. exact ND. }
  assert (Ht1 : In (x, Sto Heap (Some n) true (st_free t)) (f_types F1)) by (rewrite Ety; apply in_app_iff; right; left; reflexivity).
  destruct (free_sim F1 (pre ++ mid) post x _ Er Hf1 ND1 Ht1 B (fun _ => eq_refl) (fun _ => eq_refl) m o m1 G C1) as (m2 & C2 & D2 & H3 & H4).
  exists m2. split; [exact C2|]. split; [intros y; rewrite D2, D1; reflexivity|].
  intros b. destruct (ideqb b (x, cnt m x)) eqn:Q.
  - apply ideqb_eq in Q. subst b. destruct H2 as [[H2 (ma & mb & Ea & Ra)]|(Nn & _ & v & ma & mb & Ea & Ra)].
    + destruct H4 as [[H4 _]|(_ & v & mc & md & Ec & Rc)]; [rewrite H4, H2; reflexivity|]. exfalso.
      fold F1 in Ea. pose proof (entry_det _ _ _ _ Ea Ec) as <-. apply runs_app in Rc as [(me & R1 & R2)|(w & _ & R1)].
      * rewrite (proj2 run_has_ret _ _ _ _ R2 v eq_refl) in U6. discriminate.
      * destruct (proj2 run_det _ _ _ _ Ra _ _ R1) as [K _]. discriminate.
    + rewrite Nn. destruct H4 as [[_ (mc & md & Ec & Rc)]|(H4 & _)]; [|symmetry; exact H4]. exfalso.
      fold F1 in Ea. pose proof (entry_det _ _ _ _ Ea Ec) as <-. apply runs_app in Rc as [(me & R1 & R2)|(w & K & _)]; [|discriminate].
      destruct (proj2 run_det _ _ _ _ Ra _ _ R1) as [K _]. discriminate.
  - assert (Nb : b <> (x, cnt m x)) by (intros K; subst b; rewrite ideqb_refl in Q; discriminate).
    rewrite H3, H1 by exact Nb. reflexivity.
Qed.

(** A call has one result, so the managed program has no other behaviour. *)
Lemma exits_det l : forall m m1 m2, exits l m m1 -> exits l m m2 -> m1 = m2.
Proof.
  induction l as [|[x t] l IH]; intros m m1 m2 A B;
    inversion A as [|? ? ? ? ? S E1|? ? ? ? m3 ? S1 S2 Q E1]; inversion B as [|? ? ? ? ? S' E1'|? ? ? ? m3' ? S1' S2' Q' E1']; subst; eauto.
  - destruct S; congruence.
  - destruct S'; congruence.
  - destruct Q as [b n f A1 A2], Q' as [b' n' f' B1 B2]. rewrite A1 in B1. injection B1 as <-. eauto.
Qed.
Theorem C71_deterministic F m o mf o' mf' : call F m o mf -> call F m o' mf' -> o = o' /\ mf = mf'.
Proof.
  intros [m1 m2 m3 A B C] [n1 n2 n3 A' B' C']. pose proof (entry_det _ _ _ _ A A') as <-.
  destruct (proj2 run_det _ _ _ _ B _ _ B') as [-> <-]. pose proof (exits_det _ _ _ _ C C') as <-. auto.
Qed.

(** *** Refutations: programs the pass accepts. *)
Definition c71_env (n : Z) : env := fun y => if String.eqb y "n" then n else 0.
Definition c71_m (n : Z) : machine := Mc (c71_env n) (fun _ => None) (fun _ => None) (fun _ => 0%nat).
(** the caller passes n and a pointer x to one of its own buffers *)
Definition c71_a (n : Z) (x : string) : machine :=
  Mc (c71_env n) (fun y => if String.eqb x y then Some (("a", 0%nat), 0) else None)
     (fun b => if ideqb ("a", 0%nat) b then Some (Buf Heap 4 (fun _ => Some 7)) else None) (fun y => if String.eqb "a" y then 1%nat else 0%nat).
Definition plain : storage := Sto Heap None false false.
Lemma c71_m_aged n : aged (c71_m n). Proof. split; discriminate. Qed.
Lemma c71_a_aged n x : aged (c71_a n x).
Proof.
  split.
  - intros b B H. simpl in H. destruct (ideqb ("a", 0%nat) b) eqn:E; [|discriminate]. apply ideqb_eq in E. subst b. simpl. lia.
  - intros y b k H. simpl in H. destruct (String.eqb x y); [|discriminate]. injection H as <- <-. simpl. lia.
Qed.
Ltac num := repeat split; vm_compute; first [reflexivity | intros K; discriminate K].
Ltac cellr := eexists; eexists; split; [reflexivity|split; [reflexivity|split; [reflexivity|split; [reflexivity|num]]]].
Ltac estep := first [apply E_nil | apply E_skip; [reflexivity|] | eapply E_alloc; [reflexivity|reflexivity|reflexivity|num|]].
Ltac qstep := first [apply Q_nil | apply Q_skip; [auto; fail|] | eapply Q_free; [reflexivity|reflexivity|eapply Released; reflexivity|]].
Ltac rstep :=
  first [ apply X_nil
        | apply X_exit; eapply X_if; [reflexivity|]
        | apply X_exit; first [apply X_ret|eapply X_retv; reflexivity]
        | eapply X_cons; [first [eapply X_set; reflexivity
            | eapply X_load; [cellr|reflexivity]
            | eapply X_store; [cellr|reflexivity]
            | eapply X_view; reflexivity | eapply X_alloc; [reflexivity|num] | eapply X_free; eapply Released; reflexivity
            | eapply X_if; [reflexivity|] ]|] ].
Ltac ecall := eapply Call; [cbn [f_types set_type map apply_alloc apply_free fst snd]; repeat estep|cbn [f_root apply_alloc apply_free app]; repeat rstep|cbn [f_types]; repeat qstep].

(** (n)  n = n + 1; x = malloc(n); x[n - 1] = 5: the size is evaluated with the caller's n. *)
Definition c71_size : func := Fun ["n"] [("x", plain)]
  [SSet "n" (EAdd [ESym "n"; EInt 1]); SAlloc "x" Heap (ESym "n"); SStore "x" (EAdd [ESym "n"; EInt (-1)]) (EInt 5); SFree "x"].
Theorem C71_written_argument_refuted : exists F F' m o mf,
  aged m /\ call F m o mf /\ managed F F' /\ forall o' mf', ~ call F' m o' mf'.
Proof.
  eexists c71_size, _, (c71_m 1), Next, _. split; [apply c71_m_aged|]. split; [|split].
  - ecall.
  - apply (M_alloc c71_size [SSet "n" (EAdd [ESym "n"; EInt 1])] (SAlloc "x" Heap (ESym "n")) [SStore "x" (EAdd [ESym "n"; EInt (-1)]) (EInt 5); SFree "x"]); reflexivity.
  - intros o' mf' C. inversion C as [m1 m2 m3 A B D]; subst. cbn in A. inversion A as [| |? ? ? ? n z ? S Sz Ez Hz E1]; subst; [discriminate|].
    inversion E1; subst. injection Sz as <-. injection Ez as <-. cbn [f_root apply_alloc app] in B.
    inversion B as [|? ? ? k1 ? ? R1 R2|? ? ? v ? R1]; subst; [|inversion R1]. inversion R1 as [? ? ? v Ev| | | | | | | | | | |]; subst. injection Ev as <-.
    inversion R2 as [|? ? ? k2 ? ? R3 R4|? ? ? v ? R3]; subst; [|inversion R3].
    inversion R3 as [| |? ? ? ? b i BB z (k & j & Ep & Eh & Ej & Ei & Hi) Ez2| | | | | | | | |]; subst.
    injection Ep as <- <-. injection Eh as <-. injection Ej as <-. vm_compute in Hi. destruct Hi as [_ Hi]. discriminate Hi.
Qed.
(** (n)  if (n == 0) return; k = n; x = malloc(k); free(x): the release moves to the
    exits, the allocation does not; the early return releases an undefined pointer. *)
Definition c71_undef_pre : list stm := [SIf (CEq (ESym "n") (EInt 0)) [SReturn None] []; SSet "k" (ESym "n"); SAlloc "x" Heap (ESym "k")].
Definition c71_undef : func := Fun ["n"] [("x", plain)] (c71_undef_pre ++ [SFree "x"]).
Theorem C71_undefined_release_refuted : exists F F' m o mf,
  aged m /\ call F m o mf /\ managed F F' /\ (forall o' mf', ~ call F' m o' mf') /\
  forall pre s post, f_root F = pre ++ s :: post -> can_alloc F pre s = false.
Proof.
  eexists c71_undef, _, (c71_m 0), (Ret None), _. split; [apply c71_m_aged|]. split; [|split; [|split]].
  - ecall.
  - apply (M_free c71_undef c71_undef_pre (SFree "x") []); reflexivity.
  - intros o' mf' C. inversion C as [m1 m2 m3 A B D]; subst. cbn in A. inversion A as [|? ? ? ? ? S E1|? ? ? ? n z ? S Sz Ez Hz E1]; subst; [|discriminate].
    inversion E1; subst. cbn [f_root apply_free c71_undef_pre app] in B.
    assert (K : runs (c71_undef_pre ++ []) (c71_m 0) (Ret None) (c71_m 0)) by (repeat rstep).
    destruct (proj2 run_det _ _ _ _ K _ _ B) as [<- <-].
    cbn in D. inversion D as [|? ? ? ? ? S' E2|? ? ? ? m4 ? S1 S2 Q E2]; subst; [destruct S'; discriminate|]. destruct Q as [b n f Ep Eh]. discriminate.
  - intros pre s post E. destruct pre as [|p1 [|p2 [|p3 [|p4 pre]]]]; cbn in E; injection E; intros; subst; try reflexivity.
    destruct pre; discriminate.
Qed.
(** (n, x)  if (n == 0) return; free(x): the early return now releases the caller's buffer. *)
Definition c71_caller : func := Fun ["n"; "x"] [("x", plain)] [SIf (CEq (ESym "n") (EInt 0)) [SReturn None] []; SFree "x"].
Theorem C71_caller_buffer_refuted : exists F F' m o mf mf' b,
  aged m /\ call F m o mf /\ managed F F' /\ call F' m o mf' /\ heap mf b = heap m b /\ heap m b <> None /\ heap mf' b = None.
Proof.
  eexists c71_caller, _, (c71_a 0 "x"), (Ret None), _, _, ("a", 0%nat). split; [apply c71_a_aged|]. split; [|split; [|split]].
  - ecall.
  - apply (M_free c71_caller [SIf (CEq (ESym "n") (EInt 0)) [SReturn None] []] (SFree "x") []); reflexivity.
  - ecall.
  - split; [reflexivity|split; [discriminate|reflexivity]].
Qed.
(** (n)  if (n == 0) return; x = malloc(8); if (n < 5) free(x) else free(x): the early
    return now leaves the buffer behind. *)
Definition c71_leak : func := Fun ["n"] [("x", plain)]
  [SIf (CEq (ESym "n") (EInt 0)) [SReturn None] []; SAlloc "x" Heap (EInt 8); SIf (CLt (ESym "n") (EInt 5)) [SFree "x"] [SFree "x"]].
Theorem C71_leak_refuted : exists F F' m o mf mf' b,
  aged m /\ call F m o mf /\ managed F F' /\ call F' m o mf' /\ heap mf b = None /\ heap mf' b <> None.
Proof.
  eexists c71_leak, _, (c71_m 0), (Ret None), _, _, ("x", 0%nat). split; [apply c71_m_aged|]. split; [|split; [|split]].
  - ecall.
  - apply (M_alloc c71_leak [SIf (CEq (ESym "n") (EInt 0)) [SReturn None] []] (SAlloc "x" Heap (EInt 8)) [SIf (CLt (ESym "n") (EInt 5)) [SFree "x"] [SFree "x"]]); reflexivity.
  - ecall.
  - split; [reflexivity|discriminate].
Qed.
(** (y)  x = alloca(8); x = y; free(x): the storage type of x is first stack, then heap,
    and the allocation at entry becomes a malloc that nobody releases. *)
Definition c71_mixed : func := Fun ["y"] [("x", plain); ("y", plain)] [SAlloc "x" Stack (EInt 8); SView "x" "y" (EInt 0); SFree "x"].
Theorem C71_storage_kind_refuted : exists F F1 F2 m o mf mf' b,
  aged m /\ call F m o mf /\ managed F F1 /\ managed F1 F2 /\ call F2 m o mf' /\ heap mf b = None /\ heap mf' b <> None.
Proof.
  eexists c71_mixed, _, _, (c71_a 0 "y"), Next, _, _, ("x", 0%nat). split; [apply c71_a_aged|]. split; [|split; [|split; [|split]]].
  - ecall.
  - apply (M_alloc c71_mixed [] (SAlloc "x" Stack (EInt 8)) [SView "x" "y" (EInt 0); SFree "x"]); reflexivity.
  - apply (M_free _ [SView "x" "y" (EInt 0)] (SFree "x") []); reflexivity.
  - ecall.
  - split; [reflexivity|discriminate].
Qed.

(** *** The hypotheses are met: (n) if (n == 0) return; x = malloc(n); while (i < n)
    { x[i] = i; i = i + 1 }; s = x[0]; free(x); return s. *)
Definition c71_pre : list stm := [SIf (CEq (ESym "n") (EInt 0)) [SReturn None] []].
Definition c71_mid : list stm :=
  [SWhile (CLt (ESym "i") (ESym "n")) [SStore "x" (ESym "i") (ESym "i"); SSet "i" (EAdd [ESym "i"; EInt 1])]; SLoad "s" "x" (EInt 0)].
Definition c71_post : list stm := [SReturn (Some (ESym "s"))].
Definition c71_ok : func := Fun ["n"] [("x", plain)] (c71_pre ++ SAlloc "x" Heap (ESym "n") :: c71_mid ++ SFree "x" :: c71_post).
Theorem C71_hypotheses :
  can_alloc c71_ok c71_pre (SAlloc "x" Heap (ESym "n")) = true /\
  can_free (c71_pre ++ SAlloc "x" Heap (ESym "n") :: c71_mid) (SFree "x") c71_post = true /\
  unmanaged c71_ok "x" /\ (forall y, In y (atoms (ESym "n")) -> existsb (sets y) c71_pre = false) /\
  returns c71_pre = true /\ size_at_entry (ESym "n") (c71_m 2) /\
  (exists mf, call c71_ok (c71_m 0) (Ret None) mf) /\ (exists mf, call c71_ok (c71_m 2) (Ret (Some 0)) mf).
Proof.
  split; [reflexivity|]. split; [reflexivity|]. split; [|split; [|split; [reflexivity|split; [|split]]]].
  - split; [repeat constructor; intros []|]. exists plain. split; [left; reflexivity|split; reflexivity].
  - intros y [<-|[]]. reflexivity.
  - exists 2. split; [reflexivity|lia].
  - eexists. ecall.
  - eexists. eapply Call; [repeat estep| |repeat qstep].
    + cbn [f_root c71_ok c71_pre c71_mid c71_post app]. eapply X_cons; [eapply X_if; [reflexivity|apply X_nil]|]. rstep.
      eapply X_cons.
      { eapply X_again; [reflexivity|repeat rstep|]. eapply X_again; [reflexivity|repeat rstep|]. apply X_stop. reflexivity. }
      repeat rstep.
Qed.
